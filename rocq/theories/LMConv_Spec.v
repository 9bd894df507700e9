(** * Levenberg-Marquardt on nonlinear problems: vocabulary of C89 *)
From Coq Require Import Reals List Bool ZArith Arith.
From Verif Require Import Lib_Ring Lib_Real Policy_Model Policy_Spec Lin_Model Nlin_Model Nlin_Spec.
Open Scope R_scope.

(* the linearisation of the errors at x is off by at most K times the square of the length of the step *)
Definition curved {X} (n m : nat) (move : X -> vec R -> X) (e : X -> vec R) (Jac : X -> mat R) (K : R) (x : X) : Prop :=
  forall d, norm m (vsub (vsub (e (move x d)) (e x)) (mvmul n (Jac x) d)) <= K * vdot n d d.
(* wherever the cost is at most c: the entries of J^T J are at most L, the curvature is at most K *)
Definition tame {X} (n m : nat) (move : X -> vec R -> X) (e : X -> vec R) (Jac : X -> mat R) (c L K : R) : Prop :=
  forall x, n_cost X m e x <= c -> entries_below n m Jac x L /\ curved n m move e Jac K x.
(* with a positive conditioner the linear solver returns the solution *)
Definition answers (n m : nat) (solver : mat R -> R -> vec R -> option (vec R)) : Prop :=
  solves n m solver /\ forall A lam r, 0 < lam -> solver A lam r <> None.
(* parameters of the policy: an odd exponent, a rejected step raises the damping by more than the next accepted one can lower it; the defaults are of this kind *)
Definition steady (P : lmparams) : Prop := lm_params_ok P /\ Nat.Odd (p P) /\ gamma P < 2 * muInit P /\ gamma P < 2 * beta P.
Definition nearly_stationary {X} (n m : nat) (e : X -> vec R) (Jac : X -> mat R) (eps : R) (x : X) : Prop :=
  forall p, (p < n)%nat -> Rabs (gradient m e Jac x p) <= eps.
(* the loop after k iterations *)
Fixpoint after {X} move n m e (po : npolicy X) (k : nat) (l : nst X po) : nst X po :=
  match k with O => l | S k => n_iteration X move n m e po (after move n m e po k l) end.
