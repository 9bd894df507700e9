(** * Expressions keep their operands alive (C84) *)
From Coq Require Import Arith List Bool Lia.
From Verif Require Import Lib_Res Life_Model Life_Spec Life_Proofs Life_Proofs2 Life_Proofs3 Life_Toy.
Import ListNotations.

(** C84, in every program that has run so far: an expression the program still has can be
    evaluated as long as the objects the program took plain pointers to (toExpression(),
    the constructors from a node pointer) are still there; all other operands, however
    deep and however many of the expressions they were built from are gone, are kept alive.
    Without that condition the claim is false, see C84_usable_refuted. *)
Theorem C84_kept_alive_partial : forall p s h, run start p = Ok s -> (exists q, nth_error (vars s) h = Some (Some q)) ->
  (forall i, pointed_to p i -> alive s i) -> step s (Evaluate h) = Ok s.
Proof. exact kept_alive. Qed.
Print Assumptions C84_kept_alive_partial.
Example C84_kept_alive_case : run start toy = Ok toy_state /\ nth_error (vars toy_state) 4 = Some (Some (Some (mkPtr 3 true))) /\
  nth_error (vars toy_state) 2 = Some None /\ (forall i, pointed_to toy i -> alive toy_state i).
Proof.
  split; [exact toy_runs|]. split; [reflexivity|]. split; [reflexivity|]. intros i J. unfold pointed_to, toy in J. cbn in J.
  repeat (destruct J as [J|J]; [try discriminate; injection J as <-; eexists; split; reflexivity|]). destruct J.
Qed.

(** Exactly when evaluating is undefined behaviour: when a pointer that does not own its
    object, in the expression or anywhere below it, points to an object that is gone. *)
Theorem C84_evaluate : forall s h q, reachable s -> nth_error (vars s) h = Some (Some q) ->
  (step s (Evaluate h) = Ok s /\ ~ (exists r, reaches s q r /\ dangles s r)) \/
  (step s (Evaluate h) = UB /\ exists r, reaches s q r /\ dangles s r).
Proof. exact evaluate_spec. Qed.
Print Assumptions C84_evaluate.
Example C84_evaluate_case : step toy_state (Evaluate 4) = Ok toy_state /\ (do s <- run start late; step s (Evaluate 4)) = UB.
Proof. split; reflexivity. Qed.

(** A node created for a shared_ptr exists exactly as long as somebody owns it: an
    expression of the program or an object that exists itself. *)
Theorem C84_alive_exactly_while_owned : forall s i, reachable s -> managed s i -> (alive s i <-> 1 <= owners s i).
Proof. exact alive_owned. Qed.
Print Assumptions C84_alive_exactly_while_owned.
Example C84_alive_case : reachable toy_state /\ managed toy_state 2 /\ owners toy_state 2 = 2 /\ managed full_state 2 /\ owners full_state 2 = 0.
Proof. split; [exact toy_reachable|]. repeat split; try reflexivity; eexists; split; reflexivity. Qed.

(** Destroying or assigning an expression, and the end of a variable, never destroys
    anything twice. *)
Theorem C84_drop : forall s h, reachable s -> (exists q, nth_error (vars s) h = Some (Some q)) -> exists s', step s (Drop h) = Ok s'.
Proof. exact drop_ok. Qed.
Print Assumptions C84_drop.
Theorem C84_assign : forall s h h', reachable s -> (exists q, nth_error (vars s) h = Some (Some q)) -> (exists q, nth_error (vars s) h' = Some (Some q)) -> exists s', step s (Assign h h') = Ok s'.
Proof. exact assign_ok. Qed.
Print Assumptions C84_assign.
Theorem C84_end_of_variable : forall s i, reachable s -> alive s i -> ~ managed s i -> exists s', step s (EndVariable i) = Ok s'.
Proof. exact end_ok. Qed.
Print Assumptions C84_end_of_variable.
Example C84_drop_case : reachable toy_state /\ (exists q, nth_error (vars toy_state) 4 = Some (Some q)) /\ (exists q, nth_error (vars toy_state) 0 = Some (Some q)) /\ alive toy_state 0 /\ ~ managed toy_state 0 /\
  step toy_state (Assign 4 4) = Ok toy_state.
Proof. split; [exact toy_reachable|]. split; [eexists; reflexivity|]. split; [eexists; reflexivity|]. split; [eexists; split; reflexivity|]. split; [intros (x & [= <-] & M); discriminate|reflexivity]. Qed.

(** Nothing is left behind: when the program has no expressions any more and no variable
    exists, no node does. *)
Theorem C84_no_leak : forall s, reachable s -> (forall h v, nth_error (vars s) h = Some v -> v = None) -> (forall i, alive s i -> managed s i) -> forall i, ~ alive s i.
Proof. exact no_leak. Qed.
Print Assumptions C84_no_leak.
Example C84_no_leak_case : reachable full_state /\ (forall h v, nth_error (vars full_state) h = Some v -> v = None) /\ (forall i, alive full_state i -> managed full_state i) /\ managed full_state 3.
Proof.
  split; [exists full; exact full_runs|]. split; [|split; [|eexists; split; reflexivity]].
  - intros h v H. do 5 (destruct h as [|h]; [injection H as <-; reflexivity|]). destruct h; discriminate.
  - intros i (x & H & A). do 4 (destruct i as [|i]; [injection H as <-; discriminate|]). destruct i; discriminate.
Qed.

(** An expression does not keep a design variable alive whose toExpression() it came from,
    nor does it help to hold the design variable in a shared_ptr. *)
Theorem C84_usable_refuted : ~ (forall p s h, run start p = Ok s -> (exists q, nth_error (vars s) h = Some (Some q)) -> step s (Evaluate h) = Ok s).
Proof. exact usable_refuted. Qed.
Print Assumptions C84_usable_refuted.
Theorem C84_shared_refuted : ~ (forall p s h, run start p = Ok s -> (forall hs, ~ In (NewVariable hs) p) -> (exists q, nth_error (vars s) h = Some (Some q)) -> step s (Evaluate h) = Ok s).
Proof. exact shared_refuted. Qed.
Print Assumptions C84_shared_refuted.
