(** * Callbacks and convergence: vocabulary of C27 and C28 *)
From Coq Require Import ZArith Reals List Bool.
From Flocq Require Import BinarySingleNaN.
From Verif Require Import Lib_Float Optimizer2_Model Callback_Model.
Import ListNotations.

(** the operations a user performs on a registry *)
Inductive reg_op := RAdd (events : list nat) (c : nat) | RRemove (events : list nat) (c : nat) | RClear (e : nat) | RClearAll.
Definition perform (r : registry) (o : reg_op) : registry :=
  match o with
  | RAdd es c => add es c r
  | RRemove es c => remove es c r
  | RClear e => clear e r
  | RClearAll => clear_all r
  end.

(** does the operation take callback [c] off event [e]? *)
Definition kills (e c : nat) (o : reg_op) : bool :=
  match o with
  | RRemove es c' => existsb (Nat.eqb e) es && Nat.eqb c c'
  | RClear e' => Nat.eqb e e'
  | RClearAll => true
  | RAdd _ _ => false
  end.
(** the callbacks registered for [e] after a history (oldest operation first): those that were added, in the order in which they were added
    (as often as the event was listed), unless a later operation took them off *)
Fixpoint registered (e : nat) (h : list reg_op) : list nat :=
  match h with
  | [] => []
  | RAdd es c :: t => (if existsb (kills e c) t then [] else repeat c (count_occ Nat.eq_dec es e)) ++ registered e t
  | _ :: t => registered e t
  end.

(** [run impl e cs w v w']: the callbacks [cs] are executed one after the other, all but the last ask to continue, [v] is the verdict of the last *)
Inductive run {W} (impl : nat -> functor_ W) (e : nat) : list nat -> W -> proceed -> W -> Prop :=
| run_none : forall w, run impl e [] w CONTINUE w
| run_last : forall c w v w', call (impl c) e w = (v, w') -> run impl e [c] w v w'
| run_more : forall c cs w w1 v w', call (impl c) e w = (CONTINUE, w1) -> run impl e cs w1 v w' -> run impl e (c :: cs) w v w'.

(** [x] is below [t] as extended real numbers; false if one of them is not a number *)
Definition Below (x t : b64) : Prop :=
  (is_finite x = true /\ is_finite t = true /\ (val x < val t)%R) \/
  (x = ninf /\ (is_finite t = true \/ t = inf)) \/ (is_finite x = true /\ t = inf).
