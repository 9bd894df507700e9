(** * Specifications for the conjugate gradient solver over the real numbers *)
From Coq Require Import Reals Arith List Bool ZArith.
From Verif Require Import Lib_Ring Lib_Real SBM_Model SBM_Spec PCG_Model PCG_Spec.
Open Scope R_scope.

Definition sym (n : nat) (S : mat R) : Prop := forall p q, (p < n)%nat -> (q < n)%nat -> S p q = S q p.
Definition pos_def (n : nat) (S : mat R) : Prop := forall v : vec R, (exists i, (i < n)%nat /\ v i <> 0) -> 0 < vdot n v (mvmul n S v).
(* what MatrixType::inverse() is trusted with: it inverts the diagonal blocks *)
Definition inverts (l : list nat) (inv : nat -> mat R -> mat R) (A : sbm R) : Prop :=
  forall b, (b < length l)%nat -> meq (bsize l b) (bsize l b) (mmul (bsize l b) (blk A b b) (inv (bsize l b) (blk A b b))) mid.
(* a division that is the quotient whenever the divisor is not 0, and anything otherwise *)
Definition quotient (div : R -> R -> R) : Prop := forall a b, b <> 0 -> div a b = a / b.
(* <= and > of the real numbers *)
Definition rleb (a b : R) : bool := if Rle_dec a b then true else false.
Definition rgtb (a b : R) : bool := if Rgt_dec a b then true else false.
(* at least as many iterations as unknowns: the default -1, or a limit that is not smaller *)
Definition enough (n : nat) (P : pcg R) : Prop := (p_max P < 0)%Z \/ (Z.of_nat n <= p_max P)%Z.
