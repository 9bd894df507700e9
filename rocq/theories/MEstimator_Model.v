(** * Model of the M-estimators and of the probabilistic data association policy

    aslam_backend/src/MEstimatorPolicies.cpp, aslam_backend/src/ProbDataAssocPolicy.cpp.
    double is modelled by R. *)
From Coq Require Import Reals List.
From Verif Require Import Lib_Ring Lib_Real.
Import ListNotations.
Open Scope R_scope.

(** the estimator classes with their parameters (MEstimatorPolicies.hpp L18-135; the constructors
    store them, MEstimatorPolicies.cpp L27-29, L43-45, L64-66, L78-84, L121-123) *)
Inductive mestimator :=
| NoM
| GemanMcClure (sigma2 : R)
| Cauchy (sigma2 : R)
| Huber (k : R)                 (* _k2 = k * k *)
| BlakeZisserman (epsilon : R)
| FixedWeight (weight : R).

(** computeEpsilon, L116-119; [quantile] is boost::math::quantile of the chi-squared distribution *)
Definition computeEpsilon (quantile : nat -> R -> R) (df : nat) (pCut wCut : R) : R :=
  (1 - wCut) / wCut * exp (- quantile df pCut).
(* same code: L116-119 *)
Definition makeBlakeZisserman (quantile : nat -> R -> R) (df : nat) (pCut wCut : R) : mestimator :=
  BlakeZisserman (computeEpsilon quantile df pCut wCut).

(** getWeight: NoMEstimator L20-22, GemanMcClureMEstimator L33-36, CauchyMEstimator L49-52,
    HuberMEstimator L67-69, BlakeZissermanMEstimator L104-106, FixedWeightMEstimator L127-129 *)
Definition getWeight (m : mestimator) (error : R) : R :=
  match m with
  | NoM => 1
  | GemanMcClure sigma2 => let se := sigma2 + error in sigma2 / (se * se)
  | Cauchy sigma2 => let se := error / sigma2 in 1 / (1 + se)
  | Huber k => if Rlt_dec error (k * k) then 1 else k / sqrt error
  | BlakeZisserman epsilon => exp (- error) / (exp (- error) + epsilon)
  | FixedWeight w => w
  end.

(** ** ProbDataAssocPolicy: constructor L7-11, callback L13-44, for one group of error terms with raw
    squared errors [sq]; returns the values passed to FixedWeightMEstimator::setWeight *)
Definition scaling_factor (lambda : R) : R := - lambda / 2.
(** loop L19-29: the log weights and the running maximum (None = init_max false) *)
Fixpoint max_loop (sf : R) (sq : list R) (mx : option R) : option R :=
  match sq with
  | [] => mx
  | s :: t =>
      let lw := sf * s in
      max_loop sf t (match mx with
                     | None => Some lw
                     | Some m => if Rlt_dec m lw then Some lw else Some m end)
  end.
(* same code: L19-29 *)
Definition log_weights (sf : R) (sq : list R) : list R := map (fun s => sf * s) sq.
(* same code: L19-29 *)
Definition max_log_weight (sf : R) (sq : list R) : R :=
  match max_loop sf sq None with Some m => m | None => 0 end.
(** L31-35 *)
Definition log_norm_constant (sf : R) (sq : list R) : R :=
  ln (fold_left (fun acc lw => acc + exp (lw - max_log_weight sf sq)) (log_weights sf sq) 0) + max_log_weight sf sq.
(** L37-42 *)
Definition callback_group (lambda : R) (sq : list R) : list R :=
  let sf := scaling_factor lambda in
  map (fun lw => lw - log_norm_constant sf sq) (log_weights sf sq).
(** callback, L14: all groups *)
Definition callback (lambda : R) (groups : list (list R)) : list (list R) := map (callback_group lambda) groups.
