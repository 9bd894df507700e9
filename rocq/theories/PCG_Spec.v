(** * Specifications for the conjugate gradient solver *)
From Coq Require Import Arith Lia List Bool.
From Verif Require Import Lib_Ring Lib_Res SBM_Model SBM_Spec PCG_Model.
Import ListNotations.

Section Spec.
  Context {K : Type} {R : CRing K}.
  (* every diagonal block is stored *)
  Definition diagonal_stored (A : sbm K) : Prop := forall i, i < length (s_cols A) -> get A i i <> None.
  (* b - S x *)
  Definition residual (n : nat) (S : mat K) (b x : vec K) : vec K := fun p => ksub (b p) (mvmul n S x p).
  (* z = J r for the block diagonal matrix J of the inverses of the diagonal blocks of S *)
  Definition preconditioned (l : list nat) (inv : nat -> mat K -> mat K) (A : sbm K) (r z : vec K) : Prop :=
    forall b i, b < length l -> i < bsize l b -> z (base l b + i) = mvmul (bsize l b) (inv (bsize l b) (blk A b b)) (fun t => r (base l b + t)) i.
End Spec.
