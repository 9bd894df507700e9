(** * Steps with M-estimators: the robust cost and the cost that is reported *)
From Coq Require Import Arith Lia List ZArith NArith Bool Reals.
From Verif Require Import Lib_Ring Lib_Real Lib_Res SBM_Model SBM_Spec LinSolve_Model LinSolve_Spec MEstimator_Model MEstimator_Spec Gain_Spec LMLive_Spec.
Import ListNotations.
Local Open Scope R_scope.

(* error terms with their M-estimators; the error after the step y, for error terms that are linear in the step *)
Definition err_after (l : list nat) (s : nat -> R) (t : lterm R) (y : vec R) : vec R := fun k => lt_err t k + lin_change l s t y k.
(* the sum of the robust losses after the step *)
Definition robust_cost (l : list nat) (s : nat -> R) (tms : list (lterm R * mestimator)) (y : vec R) : R :=
  lsum tms (fun tm => loss (snd tm) (squared (fst tm) (err_after l s (fst tm) y))).
(* the sum of the weighted squared errors after the step, which evaluateError returns and Optimizer2 compares (ErrorTerm.hpp L122, LinearSystemSolver.cpp L24) *)
Definition reported_cost (l : list nat) (s : nat -> R) (tms : list (lterm R * mestimator)) (y : vec R) : R :=
  lsum tms (fun tm => getWeight (snd tm) (squared (fst tm) (err_after l s (fst tm) y)) * squared (fst tm) (err_after l s (fst tm) y)).
(* the weight that enters the linear system is that of the M-estimator for the present error (ErrorTerm.hpp L183-190) *)
Definition weighted_by (tm : lterm R * mestimator) : Prop := lt_sw (fst tm) * lt_sw (fst tm) = getWeight (snd tm) (squared (fst tm) (lt_err (fst tm))).
(* a smaller squared error means a smaller reported one *)
Definition reports_order (m : mestimator) : Prop := forall a b, 0 <= a -> a < b -> getWeight m a * a < getWeight m b * b.
