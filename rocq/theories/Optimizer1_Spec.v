(** * Optimizer (v1): vocabulary of the statement C29 (independent of the loop's code) *)
From Coq Require Import ZArith List Bool.
From Verif Require Import Lib_Res Lib_Float Optimizer2_Model Optimizer1_Model.
Import ListNotations.
Open Scope Z_scope.

(** what one pass amounted to: the linear solve failed, or a step to cost [c] was kept / undone where [g] is the decrease that the
    linear model predicted *)
Inductive outcome1 := Failed | Kept (c g : b64) | Undone (c g : b64).

(** the actions on the outside world that make up an outcome, in execution order *)
Definition actions1 (x : outcome1) : list op :=
  match x with
  | Failed => [OSolve false; ORevert]
  | Kept c _ => [OSolve true; OApply; OEval c]
  | Undone c _ => [OSolve true; OApply; OEval c; ORevert]
  end.

Definition failures1 (os : list outcome1) : Z :=
  Z.of_nat (length (filter (fun x => match x with Kept _ _ => false | _ => true end) os)).

(** the cost evaluated last *)
Fixpoint last_cost (J : b64) (os : list outcome1) : b64 :=
  match os with [] => J | Failed :: t => last_cost J t | Kept c _ :: t => last_cost c t | Undone c _ :: t => last_cost c t end.

(** the lowest cost evaluated so far *)
Definition lower (c J : b64) : b64 := if flt c J then c else J.
Fixpoint lowest (J p : b64) (os : list outcome1) : b64 :=
  match os with
  | [] => p
  | Failed :: t => lowest J (lower J p) t
  | Kept c _ :: t => lowest c (lower c p) t
  | Undone c _ :: t => lowest c (lower c p) t
  end.

(** a step is undone exactly when damping is on and the gain ratio (lowest cost so far - cost) / g is not positive *)
Fixpoint judged1 (lm : bool) (J p : b64) (os : list outcome1) : Prop :=
  match os with
  | [] => True
  | Failed :: t => judged1 lm J (lower J p) t
  | Kept c g :: t => lm && fle (fdiv (fsub p c) g) f0 = false /\ judged1 lm c (lower c p) t
  | Undone c g :: t => lm && fle (fdiv (fsub p c) g) f0 = true /\ judged1 lm c (lower c p) t
  end.

(** the value of the design variables and the value they keep for reverting: a kept step moves, an undone step returns, and a failed
    linear solve goes back to the value before the last step *)
Fixpoint walk1 {V} (step : V -> V -> Prop) (cost : V -> b64) (v s : V) (os : list outcome1) (v' : V) : Prop :=
  match os with
  | [] => v' = v
  | Failed :: t => walk1 step cost s s t v'
  | Kept c _ :: t => exists u, step v u /\ c = cost u /\ walk1 step cost u v t v'
  | Undone c _ :: t => (exists u, step v u /\ c = cost u) /\ walk1 step cost v v t v'
  end.

(** the environment respects the contract of design variables and error terms (compare [faithful] in Optimizer2_Spec.v) *)
Record faithful1 {W V} (E : env1 W) (val saved : W -> V) (cost : V -> b64) : Prop := mkFaithful1 {
  g_eval : forall w, fst (v_eval E w) = cost (val w) /\ val (snd (v_eval E w)) = val w /\ saved (snd (v_eval E w)) = saved w;
  g_build : forall w, val (v_build E w) = val w /\ saved (v_build E w) = saved w;
  g_solve : forall w x, val (snd (v_solve E w x)) = val w /\ saved (snd (v_solve E w x)) = saved w;
  g_callback : forall e w, val (v_callback E e w) = val w /\ saved (v_callback E e w) = saved w;
  g_apply : forall w, saved (snd (v_apply E w)) = val w;
  g_revert : forall w, val (v_revert E w) = saved w /\ saved (v_revert E w) = saved w }.

(** [u] is reached from [v] by one state update *)
Definition moves1 {W V} (E : env1 W) (val : W -> V) (v u : V) : Prop := exists w, val w = v /\ val (snd (v_apply E w)) = u.

(** a history without failed solves in which every evaluated cost is a number and every predicted decrease is finite and positive *)
Definition regular (J : b64) (os : list outcome1) : Prop :=
  isnan J = false /\
  forall x, In x os -> match x with
    | Failed => False
    | Kept c g | Undone c g => isnan c = false /\ Flocq.IEEE754.BinarySingleNaN.is_finite g = true /\ flt f0 g = true
    end.
