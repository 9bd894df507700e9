(** * Gauss-Newton from a good first guess: vocabulary *)
From Coq Require Import Reals List Bool ZArith.
From Verif Require Import Lib_Ring Lib_Real Policy_Model Lin_Model Nlin_Model Nlin_Spec.
Open Scope R_scope.

(* the distance of two parameter vectors *)
Definition dist (n : nat) (x y : vec R) : R := norm n (vsub x y).
(* around the stationary state xs, up to the distance rho: the Jacobian is the derivative of the error and changes at most with the rate K, and it has full rank with margin mu *)
Record regular (n m : nat) (e : vec R -> vec R) (Jac : vec R -> mat R) (xs : vec R) (rho K mu : R) : Prop := {
  rg_signs : 0 <= rho /\ 0 <= K /\ 0 < mu;
  rg_stationary : forall p, (p < n)%nat -> gradient m e Jac xs p = 0;
  rg_taylor : forall x, dist n x xs <= rho -> norm m (vsub (vsub (e xs) (e x)) (mvmul n (Jac x) (vsub xs x))) <= K / 2 * (dist n x xs * dist n x xs);
  rg_lipschitz : forall x v, dist n x xs <= rho -> norm m (vsub (mvmul n (Jac x) v) (mvmul n (Jac xs) v)) <= K * dist n x xs * norm n v;
  rg_rank : forall x v, dist n x xs <= rho -> mu * vdot n v v <= vdot m (mvmul n (Jac x) v) (mvmul n (Jac x) v) }.
(* the factor by which a Gauss-Newton step from the distance delta shortens the distance; r is the length of the error that remains at xs *)
Definition rate (K mu r delta : R) : R := K * delta / (2 * sqrt mu) + K * r / mu.
(* the linear solver does not fail on the systems around xs *)
Definition solver_works (n m : nat) (e : vec R -> vec R) (Jac : vec R -> mat R) (solver : mat R -> R -> vec R -> option (vec R)) (xs : vec R) (rho : R) : Prop :=
  forall x, dist n x xs <= rho -> solver (Jac x) 0 (n_rhs (vec R) m e Jac x) <> None.
(* the Gauss-Newton policy on parameter vectors: a step is added *)
Definition gn (n m : nat) (e : vec R -> vec R) (Jac : vec R -> mat R) (solver : mat R -> R -> vec R -> option (vec R)) : npolicy (vec R) := n_gauss_newton (vec R) n m e Jac solver.
