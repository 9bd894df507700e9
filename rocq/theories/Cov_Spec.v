(** * Specifications for marginal covariances *)
From Coq Require Import Arith Lia List ZArith Bool.
From Verif Require Import Lib_Ring Lib_Res CCM_Model SBM_Model SBM_Spec Cov_Model.
From Verif Require CCM_Spec.
Import ListNotations.

Section Spec.
  Context {K : Type} {R : CRing K}.
  Definition arrays (n : nat) (Lp Li : list nat) (Lx : list K) : ccm K := mkCcm n n Lx Li Lp false false.
  (* compressed columns of the lower-triangular n x n matrix L: in every column the diagonal comes first, then sorted rows *)
  Definition factor (n : nat) (Lp Li : list nat) (Lx : list K) (L : mat K) : Prop :=
    CCM_Spec.well_formed (arrays n Lp Li Lx) /\ CCM_Spec.stands_for k0 (arrays n Lp Li Lx) L /\
    forall c, c < n -> CCM_Spec.colptr (arrays n Lp Li Lx) c < CCM_Spec.colptr (arrays n Lp Li Lx) (c + 1) /\ CCM_Spec.rowind (arrays n Lp Li Lx) (CCM_Spec.colptr (arrays n Lp Li Lx) c) = c.
  (* X is the inverse of L L^T *)
  Definition inverse_of_factor (n : nat) (L X : mat K) : Prop := meq n n (mmul n (mmul n L (mtr L)) X) mid.
  (* the permutation that undoes the reordering; none is the identity *)
  Definition position (p : option (list nat)) (i : nat) : nat := match p with None => i | Some l => nth i l 0 end.
  Definition in_range (n : nat) (p : option (list nat)) : Prop :=
    match p with None => True | Some l => length l = n /\ forall i, i < n -> nth i l 0 < n end.
  (* every index of an element fits into an int *)
  Definition fits_int (n : nat) : Prop := (Z.of_nat n * Z.of_nat n <= int_max + 1)%Z.
End Spec.
Section Spec2.
  Context {K : Type} {R : CRing K}.
  (* A reordered by the permutation is L L^T: row i of A is row (position i) of L L^T, as for the factors of CHOLMOD (linear_solver_cholmod.h L144-148) *)
  Definition factorises (n : nat) (perm : option (list nat)) (L A : mat K) : Prop :=
    forall i j, i < n -> j < n -> A i j = mmul n L (mtr L) (position perm i) (position perm j).
  Definition permutation (n : nat) (perm : option (list nat)) : Prop :=
    (match perm with None => True | Some l => length l = n end) /\ is_perm n (position perm).
End Spec2.
