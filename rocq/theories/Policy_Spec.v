(** * Trust-region policies: vocabulary of C24-C26, C60 *)
From Coq Require Import Reals List Bool.
From Verif Require Import Lib_Ring Lib_Real Policy_Model.
Open Scope R_scope.

(** the states of a Levenberg-Marquardt policy reachable by any sequence of calls in which no gain ratio is NaN (0/0) *)
Inductive lm_reach (n : nat) (P : lmparams) : lm -> vec R -> Prop :=
| lm_reach_start : forall J sys dx, lm_reach n P (lm_start P J sys) dx
| lm_reach_step : forall s dx c ok dx' s', lm_reach n P s dx ->
    (bfirst (lm_base s) = false -> cpf c = false ->
     getLmRho n (mkLm (base_enter (lm_base s) c) (lambda s) (mu s) (lm_sys s)) dx <> Nan) ->
    lm_solve n P s dx c = (ok, dx', s') -> lm_reach n P s' dx'.

(** admissible parameters; the defaults of the code are *)
Definition lm_params_ok (P : lmparams) : Prop :=
  0 < lambdaInit P /\ 1 <= gamma P /\ 1 < beta P /\ (1 <= p P)%nat /\ 1 <= muInit P.

(** the verdict that the next call passes on the last step: it failed if Optimizer2 says so, or if the gain ratio is not positive *)
Definition lm_failed (n : nat) (s : lm) (dx : vec R) (c : call) : Prop :=
  bfirst (lm_base s) = false /\
  (cpf c = true \/ exists r, getLmRho n (mkLm (base_enter (lm_base s) c) (lambda s) (mu s) (lm_sys s)) dx = r /\ xle r 0 = true).
Definition lm_succeeded (n : nat) (s : lm) (dx : vec R) (c : call) : Prop :=
  bfirst (lm_base s) = false /\ cpf c = false /\
  xgt (getLmRho n (mkLm (base_enter (lm_base s) c) (lambda s) (mu s) (lm_sys s)) dx) 0 = true.

(** the states of a dog-leg policy reachable by calls satisfying [Good] whose linear solves succeed; the first call of a run is made with
    previousIterationFailed = false (Optimizer2.cpp L177) *)
Inductive dl_reach (n : nat) (Good : call -> Prop) : dl -> vec R -> Prop :=
| dl_reach_start : forall s J dx, dl_reach n Good (dl_start s J) dx
| dl_reach_step : forall s dx c ok dx' s', dl_reach n Good s dx ->
    (bfirst (d_base s) = true -> cpf c = false) -> fst (csolve c) = true -> Good c ->
    dl_solve n s dx c = DLok ok dx' s' -> dl_reach n Good s' dx'.

(** a symmetric positive definite matrix *)
Definition spd (n : nat) (H : mat R) : Prop :=
  (forall i j, (i < n)%nat -> (j < n)%nat -> H i j = H j i) /\
  (forall v, 0 <= vdot n v (mvmul n H v)) /\
  (forall v, vdot n v (mvmul n H v) = 0 -> veq n v (fun _ => 0)).

(** the system of a call is a Gauss-Newton system of a problem with full-rank Jacobian and non-zero gradient, and the solver solves it *)
Definition gn_system (n : nat) (c : call) : Prop :=
  exists H, spd n H /\ rJtJr (cfresh c) = vdot n (rhs (cfresh c)) (mvmul n H (rhs (cfresh c))) /\
    ~ veq n (rhs (cfresh c)) (fun _ => 0) /\
    veq n (mvmul n H (snd (csolve c))) (rhs (cfresh c)).

(** the Cauchy point of a system: the minimiser of the model along the gradient *)
Definition cauchy (n : nat) (S : system) : vec R := vscale (vdot n (rhs S) (rhs S) / rJtJr S) (rhs S).
(** the dog-leg path: from the origin to [sd], from there to [gn] *)
Definition dogleg (n : nat) (sd gn x : vec R) : Prop :=
  (exists t, 0 <= t <= 1 /\ veq n x (vscale t sd)) \/
  (exists t, 0 <= t <= 1 /\ veq n x (vadd sd (vscale t (vsub gn sd)))).

(** the runs of the Levenberg-Marquardt policy inside Optimizer2 in which every accepted step has a positive gain ratio; the last index is
    the system belonging to the current state of the design variables (after a rejected step the state, hence its system, is the old one) *)
Inductive lm_protocol (n : nat) (P : lmparams) : lm -> vec R -> option system -> Prop :=
| lmp_start : forall J sys dx, lm_protocol n P (lm_start P J sys) dx None
| lmp_step : forall s dx cur c ok dx' s', lm_protocol n P s dx cur ->
    (bfirst (lm_base s) = true -> cpf c = false) ->
    (cpf c = true -> cur = Some (cfresh c)) ->
    (bfirst (lm_base s) = false -> cpf c = false ->
      xle (getLmRho n (mkLm (base_enter (lm_base s) c) (lambda s) (mu s) (lm_sys s)) dx) 0 = false) ->
    lm_solve n P s dx c = (ok, dx', s') -> lm_protocol n P s' dx' (Some (cfresh c)).
