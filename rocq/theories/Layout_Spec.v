(** * Specification vocabulary for the column layout *)
From Coq Require Import Arith List.
From Verif Require Import DesignVar_Base Layout_Model.

(** sum of the dimensions of the first k variables of a list *)
Definition base_of (dim : nat -> nat) (l : list nat) (k : nat) : nat := fold_right plus 0 (map dim (firstn k l)).

(** attributes the layout must not change *)
Definition agree_attr {K} (h h' : dvheap K) : Prop :=
  forall v, dv_active (h' v) = dv_active (h v) /\ dv_dim (h' v) = dv_dim (h v) /\ dv_scaling (h' v) = dv_scaling (h v).

