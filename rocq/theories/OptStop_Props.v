(** * Optimizer2: the convergence threshold bounds the number of kept steps (part of C23) *)
From Coq Require Import ZArith Reals List Bool.
From Flocq Require Import BinarySingleNaN.
From Verif Require Import Lib_Res Lib_Float Optimizer2_Model Optimizer2_Toy OptStop_Proofs.
Import ListNotations.
Open Scope R_scope.

(** With a policy that reverts failed steps, in double arithmetic, whatever the iteration limit: if no solve failed and every evaluated cost
    is finite, then all kept steps (applied and not reverted) but one together lowered the cost by at least the threshold
    convergenceDeltaError each; product and difference are exact, the tests of the loop are those in doubles. *)
Theorem C23_kept_steps : forall W D (E : @env W D) opt, eRevertOnFailure E = true ->
  is_finite (convergenceDeltaError opt) = true -> 0 <= val (convergenceDeltaError opt) ->
  forall s d w l, optimize E opt s d w = Some (Ok l) ->
  (forall c, In (OEval c) (log l) -> is_finite c = true) -> ~ In (OSolve false) (log l) ->
  let n (f : op -> bool) := Z.of_nat (length (filter f (log l))) in
  let applied := n (fun o => match o with OApply => true | _ => false end) in
  let reverted := n (fun o => match o with ORevert => true | _ => false end) in
  (IZR (applied - reverted) - 1) * val (convergenceDeltaError opt) <= val (JStart (st l)) - val (JFinal (st l)).
Proof. exact (fun W D => @kept_steps W D). Qed.
Print Assumptions C23_kept_steps.
(** So with costs that are not negative and a positive threshold the number of kept steps is at most JStart / threshold + 1: the
    threshold alone keeps a run from accepting steps forever. *)
Theorem C23_kept_steps_bound : forall W D (E : @env W D) opt, eRevertOnFailure E = true ->
  is_finite (convergenceDeltaError opt) = true -> 0 < val (convergenceDeltaError opt) ->
  forall s d w l, optimize E opt s d w = Some (Ok l) ->
  (forall c, In (OEval c) (log l) -> is_finite c = true /\ 0 <= val c) -> ~ In (OSolve false) (log l) ->
  let n (f : op -> bool) := Z.of_nat (length (filter f (log l))) in
  let applied := n (fun o => match o with OApply => true | _ => false end) in
  let reverted := n (fun o => match o with ORevert => true | _ => false end) in
  IZR (applied - reverted) <= val (JStart (st l)) / val (convergenceDeltaError opt) + 1.
Proof. exact (fun W D => @kept_steps_bound W D). Qed.
Print Assumptions C23_kept_steps_bound.
(** a run that keeps three of its four steps under the threshold 2^-10 *)
Example C23_kept_example : (forall n, is_finite (convergenceDeltaError (toy_opt n)) = true /\ 0 < val (convergenceDeltaError (toy_opt n))) /\
  exists l, toy_run true 100 9 [(true, -3); (true, 20); (true, -4)]%Z = Some (Ok l) /\
  kept (log l) = 3%Z /\ JStart (st l) = fz 81 /\ JFinal (st l) = fz 4 /\ conv (st l) = DX /\
  forallb (fun o => match o with OEval c => is_finite c | OSolve b => b | _ => true end) (log l) = true.
Proof. exact (conj toy_threshold toy_kept). Qed.
(** the number of kept steps is bounded only while no solve fails: after one failed solve the run of C26 keeps steps that change nothing *)
Theorem C23_kept_steps_failed_solve_refuted : exists l, toy_run true 100 3 [(false, 0); (true, -3)]%Z = Some (Ok l) /\
  kept (log l) = 100%Z /\ JStart (st l) = fz 9 /\ JFinal (st l) = fz 0 /\ eRevertOnFailure (toy_env true) = true /\
  filter (fun o => match o with OSolve false => true | _ => false end) (log l) = [OSolve false].
Proof. exact toy_failed_kept. Qed.
Print Assumptions C23_kept_steps_failed_solve_refuted.
