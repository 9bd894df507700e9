(** * Optimizer2: vocabulary of the statements C21-C23, C26 (independent of the loop's code) *)
From Coq Require Import ZArith List Bool.
From Verif Require Import Lib_Res Lib_Float Optimizer2_Model.
Import ListNotations.
Open Scope Z_scope.

(** what one pass through the loop amounted to *)
Inductive outcome := SolveFailed | Accepted (c : b64) | Rejected (c : b64).

(** the actions on the outside world that make up an outcome, in execution order *)
Definition actions (o : outcome) : list op :=
  match o with
  | SolveFailed => [OSolve false]
  | Accepted c => [OSolve true; OApply; OEval c]
  | Rejected c => [OSolve true; OApply; OEval c; ORevert]
  end.

Definition steps_tried (os : list outcome) : Z :=
  Z.of_nat (length (filter (fun o => match o with SolveFailed => false | _ => true end) os)).
Definition failures (os : list outcome) : Z :=
  Z.of_nat (length (filter (fun o => match o with Accepted _ => false | _ => true end) os)).

(** the cost that is current after the outcomes [os], starting from cost [J0]: the last accepted one *)
Fixpoint current (J0 : b64) (os : list outcome) : b64 :=
  match os with [] => J0 | Accepted c :: t => current c t | _ :: t => current J0 t end.

(** a step is rejected exactly when reverting is enabled and the cost grew (as decided in double arithmetic) *)
Definition regression (J c : b64) : bool := flt (fsub J c) f0.
Fixpoint judged (rof : bool) (J0 : b64) (os : list outcome) : Prop :=
  match os with
  | [] => True
  | SolveFailed :: t => judged rof J0 t
  | Accepted c :: t => rof && regression J0 c = false /\ judged rof c t
  | Rejected c :: t => rof && regression J0 c = true /\ judged rof J0 t
  end.

(** the design variables walk through states: accepted steps move, everything else stays *)
Fixpoint walk {V} (step : V -> V -> Prop) (cost : V -> b64) (v : V) (os : list outcome) (v' : V) : Prop :=
  match os with
  | [] => v' = v
  | SolveFailed :: t => walk step cost v t v'
  | Accepted c :: t => exists u, step v u /\ c = cost u /\ walk step cost u t v'
  | Rejected c :: t => (exists u, step v u /\ c = cost u) /\ walk step cost v t v'
  end.

(** the environment respects the contract of design variables and error terms: [val] is the value of the design variables, [saved] the
    value they keep for reverting (DesignVariable, see C15), [cost] the cost as a function of the value *)
Record faithful {W D V} (E : @env W D) (val saved : W -> V) (cost : V -> b64) : Prop := mkFaithful {
  f_eval : forall w p, fst (eEval E w p) = cost (val w) /\ val (snd (eEval E w p)) = val w /\ saved (snd (eEval E w p)) = saved w;
  f_start : forall w J, val (eStart E w J) = val w;
  f_solve : forall w J b d, val (snd (eSolve E w J b d)) = val w;
  f_callback : forall e w, val (eCallback E e w) = val w /\ saved (eCallback E e w) = saved w;
  f_apply : forall w d, saved (snd (eApply E w d)) = val w;
  f_revert : forall w, val (eRevert E w) = saved w }.
