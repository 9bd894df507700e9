(** * Optimizer2: the properties C21, C22, C23, C26 (loop) and C28 (Optimizer2 part) *)
From Coq Require Import ZArith List Bool.
From Verif Require Import Lib_Res Lib_Float Optimizer2_Model Optimizer2_Spec Optimizer2_Proofs Optimizer2_Toy.
Import ListNotations.
Open Scope Z_scope.

(** ** C21 *)
(** With a policy that reverts failed steps, for every environment in which no evaluated cost is NaN (infinities are allowed): the final
    cost is at most the starting cost and at most every cost that was evaluated, it is one of them, and it is the reported error. *)
Theorem C21_never_worse_partial : forall W D (E : @env W D) opt s d w l, eRevertOnFailure E = true -> optimize E opt s d w = Some (Ok l) ->
  (forall c, In (OEval c) (log l) -> isnan c = false) ->
  fle (JFinal (st l)) (JStart (st l)) = true /\ error (st l) = JFinal (st l) /\
  In (OEval (JFinal (st l))) (log l) /\ (forall c, In (OEval c) (log l) -> fle (JFinal (st l)) c = true).
Proof. exact (fun W D => @never_worse W D). Qed.
Print Assumptions C21_never_worse_partial.
(** without the NaN assumption it is false: a step to a NaN cost is accepted and reported *)
Theorem C21_nan_refuted : exists l, toy_run true 10 3 [(true, -4)] = Some (Ok l) /\
  JStart (st l) = fz 9 /\ JFinal (st l) = NaN /\ fle (JFinal (st l)) (JStart (st l)) = false /\ tv (world l) = -1 /\
  conv (st l) = IN_PROGRESS /\ iterations (st l) = 1.
Proof. exact toy_nan. Qed.
Print Assumptions C21_nan_refuted.
Example C21_example : exists l, toy_run true 10 9 [(true, -3); (true, 20); (false, 5); (true, -6)] = Some (Ok l) /\
  JStart (st l) = fz 81 /\ JFinal (st l) = fz 0 /\ rev (log l) =
    [OEval (fz 81); OSolve true; OApply; OEval (fz 36); OSolve true; OApply; OEval (fz 676); ORevert; OSolve false;
     OSolve true; OApply; OEval (fz 0)] ++ concat (repeat [OSolve true; OApply; OEval (fz 0)] 7).
Proof. exact toy_mixed. Qed.

(** ** C22 *)
(** For every environment that respects the contract of design variables and error terms: the run is a sequence of failed solves, accepted
    and rejected steps; the design variables walk along exactly the accepted steps (each rejected step was applied, evaluated and undone by
    exactly one revert); a step is rejected exactly when reverting is on and the cost grew; and the reported final cost and error are the cost of the
    state the design variables are left in. *)
Theorem C22_state_is_reported : forall W D (E : @env W D) opt V (val saved : W -> V) cost, faithful E val saved cost ->
  forall s d w l, optimize E opt s d w = Some (Ok l) ->
      exists os, rev (log l) = OEval (JStart (st l)) :: flat_map actions os /\
        walk (moves E val) cost (val w) os (val (world l)) /\
        judged (eRevertOnFailure E) (JStart (st l)) os /\
        JStart (st l) = cost (val w) /\ JFinal (st l) = cost (val (world l)) /\ error (st l) = cost (val (world l)).
Proof. exact (fun W D E opt V val saved cost => @state_is_reported W D E opt V val saved cost). Qed.
Print Assumptions C22_state_is_reported.
Example C22_example : faithful (toy_env true) tv tsaved toy_cost /\
  exists l, toy_run true 3 9 [(true, -3); (true, 20); (true, -6)] = Some (Ok l) /\ tv (world l) = 0 /\ JFinal (st l) = toy_cost 0 /\
    failedIterations (st l) = 1.
Proof. exact (conj (toy_faithful true) toy_reported). Qed.

(** ** C23 *)
(** optimize always terminates: it returns, or throws because the step has the wrong size; it returns if the sizes are right *)
Theorem C23_terminates : forall W D (E : @env W D) opt s d w,
  optimize E opt s d w <> None /\ ((forall w d, eSize E w d = true) -> exists l, optimize E opt s d w = Some (Ok l)).
Proof. exact (fun W D E opt s d w => conj (@optimize_total W D E opt s d w) (fun H => @optimize_returns W D E opt H s d w)). Qed.
Print Assumptions C23_terminates.
(** the reported counters are the numbers of executed actions (added to what the counters held before), and iterations and failures
    each stay within the limit *)
Theorem C23_counts : forall W D (E : @env W D) opt s d w l, optimize E opt s d w = Some (Ok l) ->
  let n (f : op -> bool) := Z.of_nat (length (filter f (log l))) in
  iterations (st l) = iterations s + n (fun o => match o with OApply => true | _ => false end) /\
  failedIterations (st l) = failedIterations s + n (fun o => match o with ORevert | OSolve false => true | _ => false end) /\
  numErrorEvaluations (st l) = numErrorEvaluations s + n (fun o => match o with OEval _ => true | _ => false end) /\
  numJacobianEvaluations (st l) = numJacobianEvaluations s + n (fun o => match o with OSolve _ => true | _ => false end) /\
  numIterations (st l) = iterations (st l) /\
  iterations (st l) <= Z.max (iterations s) (maxIterations opt) /\
  failedIterations (st l) <= Z.max (failedIterations s) (maxIterations opt).
Proof. exact (fun W D => @counts W D). Qed.
Print Assumptions C23_counts.
(** the setting -1, documented as "unlimited", performs no iteration at all, in every environment: one evaluation, then MAX_ITERATIONS *)
Theorem C23_unlimited_refuted : forall W D (E : @env W D) opt d w l, maxIterations opt = -1 -> optimize E opt status0 d w = Some (Ok l) ->
  log l = [OEval (JStart (st l))] /\ conv (st l) = MAX_ITERATIONS /\ iterations (st l) = 0.
Proof.
  exact (fun W D E opt d w l H R => match @no_room W D E opt status0 d w l (eq_ind_r (fun z => z <= 0) (Zle_bool_imp_le (-1) 0 eq_refl) H) R with
    conj A (conj B (conj C _)) => conj A (conj B C) end).
Qed.
Print Assumptions C23_unlimited_refuted.
(** after a run that used up its iterations, a second call of optimize() does nothing but evaluate the cost *)
Theorem C23_second_call_refuted : forall W D (E : @env W D) opt s d w l l', optimize E opt s d w = Some (Ok l) ->
  maxIterations opt <= iterations (st l) -> optimize_again E opt l = Some (Ok l') ->
  log l' = [OEval (JStart (st l'))] /\ conv (st l') = MAX_ITERATIONS /\ iterations (st l') = iterations (st l).
Proof.
  exact (fun W D E opt s d w l l' _ H R => match @no_room W D E opt (st l) (dx l) (world l) l' H R with
    conj A (conj B (conj C _)) => conj A (conj B C) end).
Qed.
Print Assumptions C23_second_call_refuted.
Example C23_example : exists l l', toy_run true 3 9 [(true, -3); (true, 20); (true, -1); (true, -2)] = Some (Ok l) /\
  iterations (st l) = 3 /\ failedIterations (st l) = 1 /\ tv (world l) = 5 /\
  optimize_again (toy_env true) (toy_opt 3) l = Some (Ok l') /\ tv (world l') = 5.
Proof. exact toy_again. Qed.

(** ** C26 (the loop) *)
(** A failed solve is never followed by a state update: the executed actions are the starting evaluation followed by groups, and the group
    of a failed solve is that solve alone. The reported flag tells whether SOME solve of the run failed, and then the
    status is MAX_ITERATIONS or FAILURE. *)
Theorem C26_no_step_partial : forall W D (E : @env W D) opt s d w l, optimize E opt s d w = Some (Ok l) ->
  (exists os, rev (log l) = OEval (JStart (st l)) :: flat_map actions os) /\
  (srvLinearSolverFailure (st l) = true <-> In (OSolve false) (log l)) /\
  (In (OSolve false) (log l) -> conv (st l) = MAX_ITERATIONS \/ conv (st l) = FAILURE).
Proof.
  exact (fun W D E opt s d w l H => conj (match @optimize_summary W D E opt s d w l H with ex_intro _ os (conj A _) => ex_intro _ os A end)
    (@failure_is_sticky W D E opt s d w l H)).
Qed.
Print Assumptions C26_no_step_partial.
(** so the flag does not tell whether the LAST solve failed, and a run that recovers and reaches the optimum keeps iterating until the
    limit: one failed solve, then 10 successful ones, nine of them with a zero step *)
Theorem C26_flag_refuted : exists l, toy_run true 10 3 [(false, 0); (true, -3)] = Some (Ok l) /\
  srvLinearSolverFailure (st l) = true /\ hd_error (filter (fun o => match o with OSolve _ => true | _ => false end) (log l)) = Some (OSolve true) /\
  JFinal (st l) = fz 0 /\ iterations (st l) = 10 /\ conv (st l) = MAX_ITERATIONS.
Proof. exact toy_flag. Qed.
Print Assumptions C26_flag_refuted.

(** ** C28 (what Optimizer2 reports) *)
(** started from a reset status, the reported convergence is justified by the reported quantities *)
Theorem C28_optimizer2 : forall W D (E : @env W D) opt s d w l, optimize E opt s d w = Some (Ok l) -> conv s = IN_PROGRESS ->
    match conv (st l) with
    | MAX_ITERATIONS => maxIterations opt <= iterations (st l)
    | FAILURE => In (OSolve false) (log l) \/ maxIterations opt <= failedIterations (st l)
    | DX => fle (dXFinal (st l)) (convergenceDeltaX opt) = true
    | DOBJECTIVE => fle (fabs (dJFinal (st l))) (convergenceDeltaError opt) = true
    | GRADIENT_NORM => False
    | IN_PROGRESS => isnan (dXFinal (st l)) = true \/ isnan (dJFinal (st l)) = true \/
                     isnan (convergenceDeltaX opt) = true \/ isnan (convergenceDeltaError opt) = true
    end.
Proof. exact (fun W D => @reported_convergence W D). Qed.
Print Assumptions C28_optimizer2.
(** a NaN cost ends the run with the status still IN_PROGRESS *)
Theorem C28_optimizer2_nan : exists l, toy_run true 10 3 [(true, -4)] = Some (Ok l) /\
  JStart (st l) = fz 9 /\ JFinal (st l) = NaN /\ fle (JFinal (st l)) (JStart (st l)) = false /\ tv (world l) = -1 /\
  conv (st l) = IN_PROGRESS /\ iterations (st l) = 1.
Proof. exact toy_nan. Qed.
Print Assumptions C28_optimizer2_nan.
Example C28_example_optimizer2 : exists l, toy_run true 10 3 [(true, -3)] = Some (Ok l) /\ conv (st l) = DX /\ iterations (st l) = 2.
Proof. exact toy_dx. Qed.
