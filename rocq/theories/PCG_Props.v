(** * The conjugate gradient solver: property C47 *)
From Coq Require Import Arith List ZArith Bool QArith Qcanon.
From Verif Require Import Lib_Ring Lib_Res SBM_Model SBM_Spec PCG_Model PCG_Spec PCG_Proofs PCG_Toy.
Import ListNotations.

(** C47 (honest residual): A holds the upper blocks of the symmetric S with every diagonal block stored, and the solver is fresh or has seen this pattern.
    For every right-hand side, tolerance, iteration limit, division and block inverse the solve runs; the residual it stores is half of r . J r for the true
    residual r = b - S x of the x it delivers; and if it left the loop through the tolerance test, then r . J r passes that test against the threshold it
    computed from b . J b. The iteration limit is arbitrary, so this speaks about every iteration. *)
Theorem C47_honest_residual : forall (K : Type) (R : CRing K) (div : K -> K -> K) (leb gtb : K -> K -> bool) (half : K) (inv : nat -> mat K -> mat K) (A : sbm K) l S,
  holds_upper A l S -> (forall p q, (p < total l)%nat -> (q < total l)%nat -> S p q = S q p) -> diagonal_stored A ->
  forall P b, p_ix P = [] \/ p_ix P = index_of A ->
  exists P' x broke z0 z, pcg_solve div leb gtb half inv P A b = Ok (P', x, true, broke) /\ p_ix P' = index_of A /\
    preconditioned l inv A b z0 /\ preconditioned l inv A (residual (total l) S b x) z /\ p_res P' = kmul half (vdot (total l) (residual (total l) S b x) z) /\
    (broke = true -> leb (vdot (total l) (residual (total l) S b x) z) (threshold gtb P (vdot (total l) b z0)) = true).
Proof. exact (fun K R => @solve_honest K R). Qed.
Print Assumptions C47_honest_residual.
Example C47_honest_residual_case : holds_upper A1 lay S1 /\ (forall p q, (p < total lay)%nat -> (q < total lay)%nat -> S1 p q = S1 q p) /\ diagonal_stored A1 /\ p_ix (P0 (q 0 1) 10) = [] /\
  pcg_solve Qcdiv qleb qgtb (q 1 2) inv1 (P0 (q 0 1) 10) A1 (vecq [3; 4; 4]%Z) = Ok (fst (fst (fst run1)), snd (fst (fst run1)), true, true) /\
  forall p, (p < 3)%nat -> snd (fst (fst run1)) p = q 1 1.
Proof. exact (conj A1_holds (conj S1_sym (conj A1_diag (conj eq_refl (conj run1_eq run1_sol))))). Qed.

(** The result true does not mean solved: it is also returned when the iteration limit was reached, here with r . J r above the tolerance. *)
Theorem C47_success_refuted : exists P A l S b P' x, holds_upper A l S /\ total l = 3%nat /\ (forall p q, (p < total l)%nat -> (q < total l)%nat -> S p q = S q p) /\ diagonal_stored A /\ p_ix P = [] /\
  pcg_solve Qcdiv qleb qgtb (q 1 2) inv1 P A b = Ok (P', x, true, false) /\ qleb (meas S b x) (Qcmult (p_tol P) (meas S b (vecq []))) = false.
Proof. exact limit. Qed.
Print Assumptions C47_success_refuted.

(** With the default absolute tolerance a second solve takes the residual left by the first as its threshold: a smaller right-hand side is answered with x = 0. *)
Theorem C47_leftover_threshold_refuted : exists P A l S b1 b2 P1 x1 P2 x2, holds_upper A l S /\ total l = 3%nat /\ (forall p q, (p < total l)%nat -> (q < total l)%nat -> S p q = S q p) /\ diagonal_stored A /\
  p_ix P = [] /\ p_res P = q (-1) 1 /\ p_tol P = q 1 10 /\
  pcg_solve Qcdiv qleb qgtb (q 1 2) inv1 P A b1 = Ok (P1, x1, true, true) /\ pcg_solve Qcdiv qleb qgtb (q 1 2) inv1 P1 A b2 = Ok (P2, x2, true, true) /\
  b2 0%nat <> q 0 1 /\ forall p, (p < 3)%nat -> x2 p = q 0 1.
Proof. exact leftover. Qed.
Print Assumptions C47_leftover_threshold_refuted.

(** A block added to the matrix between two solves (without init) is left out: the test passes with tolerance 0 although the residual is not zero. *)
Theorem C47_stale_index_refuted : exists P A l S b P1 x1 A' S' P2 x2, holds_upper A l S /\ holds_upper A' l S' /\ total l = 3%nat /\ (forall p q, (p < total l)%nat -> (q < total l)%nat -> S' p q = S' q p) /\
  diagonal_stored A /\ diagonal_stored A' /\ p_ix P = [] /\ p_tol P = q 0 1 /\ p_res P = q (-1) 1 /\
  pcg_solve Qcdiv qleb qgtb (q 1 2) inv1 P A b = Ok (P1, x1, true, true) /\ pcg_solve Qcdiv qleb qgtb (q 1 2) inv1 P1 A' b = Ok (P2, x2, true, true) /\
  residual 3 S' b x2 0%nat <> q 0 1.
Proof. exact stale. Qed.
Print Assumptions C47_stale_index_refuted.
