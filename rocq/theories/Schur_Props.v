(** * The Schur complement: property C45 *)
From Coq Require Import Arith List ZArith Bool.
From Verif Require Import Lib_Ring Lib_Res SBM_Model SBM_Spec Schur_Model Schur_Spec Schur_Proofs2 Schur_Toy.
Import ListNotations.

(** C45: H holds the upper blocks of the symmetric S, the blocks from m0 on are coupled only with themselves and their (damped) diagonal blocks are
    inverted properly. Then applySchurComplement runs, leaves H alone and delivers a symmetric reduced system, and the solutions y of the full damped
    system are exactly the vectors whose first part solves the reduced system and whose other parts are what buildDsi computes from the first part. *)
Theorem C45_elimination : forall (K : Type) (R : CRing K) (inv : nat -> mat K -> mat K) (H : sbm K) l S rhs lambda m0 (lm : bool) A D n,
  holds_upper H l S -> symmetric (total l) S -> m0 + n = length l -> block_diagonal_from m0 l S -> represents A (firstn m0 l) (firstn m0 l) D ->
  let d := if lm then lambda else k0 in
  (forall i V, i < n -> meq (bsize l (m0 + i)) (bsize l (m0 + i)) V (diag_block l d S (m0 + i)) -> right_inverse (bsize l (m0 + i)) V (inv (bsize l (m0 + i)) V)) ->
  exists x Ar, applySchurComplement inv H rhs lambda m0 lm A n = Ok x /\ holds_upper (sc_H x) l S /\ length (sc_inv x) = n /\
    holds_upper (sc_A x) (firstn m0 l) Ar /\ symmetric (base l m0) Ar /\
    forall y, solves (total l) (damped_by d S) y rhs <->
      solves (base l m0) Ar y (sc_b x) /\
      forall i t, i < n -> t < bsize l (m0 + i) -> y (base l (m0 + i) + t) = buildDsi i (sc_H x) rhs m0 (nth i (sc_inv x) zeroM) y t.
Proof. exact (fun K R inv => @schur_ok K R inv). Qed.
Print Assumptions C45_elimination.
Example C45_elimination_case : holds_upper H3 lay3 S3 /\ symmetric (total lay3) S3 /\ 1 + 2 = length lay3 /\ block_diagonal_from 1 lay3 S3 /\
  represents dest3 (firstn 1 lay3) (firstn 1 lay3) (toDense dest3) /\
  (forall i V, i < 2 -> meq (bsize lay3 (1 + i)) (bsize lay3 (1 + i)) V (diag_block lay3 2%Z S3 (1 + i)) -> right_inverse (bsize lay3 (1 + i)) V (self_inv (bsize lay3 (1 + i)) V)) /\
  applySchurComplement self_inv H3 rhs3 2%Z 1 true dest3 2 = Ok x3 /\ map (sc_b x3) [0; 1] = [3; 0]%Z.
Proof.
  exact (conj H3_holds (conj S3_sym (conj eq_refl (conj S3_diag (conj dest3_represents (conj (fun i V => self_inv_ok S3 i V (or_introl eq_refl)) (conj x3_run (proj1 x3_values)))))))).
Qed.

(** Coupled eliminated blocks are not noticed: the result is not a solution. *)
Theorem C45_coupled_refuted : exists (inv : nat -> mat Z -> mat Z) H l S rhs lambda A D x Ar y, holds_upper H l S /\ symmetric (total l) S /\ 1 + 2 = length l /\
  represents A (firstn 1 l) (firstn 1 l) D /\
  (forall i V, i < 2 -> meq (bsize l (1 + i)) (bsize l (1 + i)) V (diag_block l lambda S (1 + i)) -> right_inverse (bsize l (1 + i)) V (inv (bsize l (1 + i)) V)) /\
  applySchurComplement inv H rhs lambda 1 true A 2 = Ok x /\ holds_upper (sc_A x) (firstn 1 l) Ar /\ symmetric (base l 1) Ar /\ solves (base l 1) Ar y (sc_b x) /\
  (forall i t, i < 2 -> t < bsize l (1 + i) -> y (base l (1 + i) + t) = buildDsi i (sc_H x) rhs 1 (nth i (sc_inv x) zeroM) y t) /\
  ~ solves (total l) (damped_by lambda S) y rhs.
Proof. exact coupled. Qed.
Print Assumptions C45_coupled_refuted.
