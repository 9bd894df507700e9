(** * Specifications for the Schur complement *)
From Coq Require Import Arith Lia List Bool.
From Verif Require Import Lib_Ring Lib_Res SBM_Model SBM_Spec Schur_Model.
Import ListNotations.

Section Spec.
  Context {K : Type} {R : CRing K}.
  Definition right_inverse (n : nat) (V X : mat K) : Prop := meq n n (mmul n V X) mid.
  (* S + d I *)
  Definition damped_by (d : K) (S : mat K) : mat K := fun p q => if p =? q then kadd (S p q) d else S p q.
  (* the diagonal block of S + d I that belongs to block b of the layout l *)
  Definition diag_block (l : list nat) (d : K) (S : mat K) (b : nat) : mat K := fun t u => damped_by d S (base l b + t) (base l b + u).
  (* no coupling between different blocks from m0 on *)
  Definition block_diagonal_from (m0 : nat) (l : list nat) (S : mat K) : Prop :=
    forall b c i j, m0 <= b < length l -> m0 <= c < length l -> b <> c -> i < bsize l b -> j < bsize l c -> S (base l b + i) (base l c + j) = k0.
  Definition symmetric (n : nat) (S : mat K) : Prop := forall p q, p < n -> q < n -> S p q = S q p.
  (* A x = b *)
  Definition solves (n : nat) (A : mat K) (x b : vec K) : Prop := forall p, p < n -> mvmul n A x p = b p.
End Spec.
