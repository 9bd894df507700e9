(** * Nonlinear least-squares problems: vocabulary *)
From Coq Require Import Reals List Bool ZArith.
From Verif Require Import Lib_Ring Lib_Real Policy_Model Lin_Model Nlin_Model.
Open Scope R_scope.

(* whatever the linear solver returns solves (J^T J + lam^2 I) y = r; it may also fail *)
Definition solves (n m : nat) (solver : mat R -> R -> vec R -> option (vec R)) : Prop :=
  forall A lam r y, solver A lam r = Some y -> forall p, (p < n)%nat -> mvmul n (mmul m (mtr A) A) y p + lam * lam * y p = r p.
(* half the gradient of the cost at x, along the coordinates of the step: J^T e *)
Definition gradient {X} (m : nat) (e : X -> vec R) (Jac : X -> mat R) (x : X) : vec R := mvmul m (mtr (Jac x)) (e x).
(* no entry of J^T J is larger than L *)
Definition entries_below {X} (n m : nat) (Jac : X -> mat R) (x : X) (L : R) : Prop :=
  forall p q, (p < n)%nat -> (q < n)%nat -> Rabs (mmul m (mtr (Jac x)) (Jac x) p q) <= L.
