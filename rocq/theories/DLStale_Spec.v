(** * The dog-leg policy after a rejected step: the calls of a run on a problem with one parameter and one error *)
From Coq Require Import Reals.
From Verif Require Import Lib_Ring Lib_Real Policy_Model Policy_Spec Policy_Proofs3.
Open Scope R_scope.

(** the call that Optimizer2 makes at the parameter [x] with the cost [J]: the Gauss-Newton system of the error [e] with derivative [de] and its solution *)
Definition call_at (e de : R -> R) (J : R) (pf : bool) (x : R) : call :=
  mkCall J pf (mkSystem (cv (- (de x * e x))) ((de x * (de x * e x)) * (de x * (de x * e x)))) (true, cv (- e x / de x)).
(** half the derivative of the cost e^2 *)
Definition slope (e de : R -> R) (x : R) : R := de x * e x.
