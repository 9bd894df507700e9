From Coq Require Import ZArith List Bool Lia.
From Flocq Require Import BinarySingleNaN.
From Verif Require Import Lib_Res Lib_Float Optimizer2_Model Optimizer2_Spec.
Import ListNotations.
Open Scope Z_scope.

Opaque fsub fadd fz fl flt fle fabs fopp.
Section P.
  Context {W D : Type} (E : @env W D) (opt : options).
  Notation iteration := (iteration E).
  Notation loop := (loop E opt).

  Lemma loop_ind : forall (P : @loopst W D -> Prop),
    (forall l l', P l -> continue_ opt l = true -> iteration l = Ok l' -> P l') ->
    forall f l l', P l -> loop f l = Some (Ok l') -> P l' /\ continue_ opt l' = false.
  Proof.
    intros P Hs. induction f; intros l l' Hl H; cbn in H.
    - destruct (continue_ opt l) eqn:C; try discriminate. injection H as <-. auto.
    - destruct (continue_ opt l) eqn:C; [|injection H as <-; auto].
      destruct (iteration l) eqn:I; try discriminate. apply IHf in H; auto. eapply Hs; eauto.
  Qed.

  (** one pass *)
  Definition frame (l l' : @loopst W D) : Prop :=
    JStart (st l') = JStart (st l) /\ numJacobianEvaluations (st l') = numJacobianEvaluations (st l) + 1 /\
    conv (st l') = conv (st l).

  Lemma eval_spec : forall (l : @loopst W D) e w, eEval E (world l) (pJ l) = (e, w) ->
    let l' := evaluateError E l in
    error (st l') = e /\ maxDeltaX (st l') = maxDeltaX (st l) /\ numErrorEvaluations (st l') = numErrorEvaluations (st l) + 1 /\
    conv (st l') = conv (st l) /\ numJacobianEvaluations (st l') = numJacobianEvaluations (st l) /\ JStart (st l') = JStart (st l) /\
    iterations (st l') = iterations (st l) /\ failedIterations (st l') = failedIterations (st l) /\ numIterations (st l') = numIterations (st l) /\
    pJ l' = pJ l /\ dx l' = dx l /\ world l' = w /\ lsf l' = lsf l /\ log l' = OEval e :: log l /\ prevFailed l' = prevFailed l.
  Proof. intros l e w H. unfold evaluateError. rewrite H. repeat split. Qed.

  Lemma apply_spec : forall (l : @loopst W D) dX w, eApply E (world l) (dx l) = (dX, w) ->
    let l' := apply_step E l in
    error (st l') = error (st l) /\ maxDeltaX (st l') = dX /\ numErrorEvaluations (st l') = numErrorEvaluations (st l) /\
    conv (st l') = conv (st l) /\ numJacobianEvaluations (st l') = numJacobianEvaluations (st l) /\ JStart (st l') = JStart (st l) /\
    iterations (st l') = iterations (st l) /\ failedIterations (st l') = failedIterations (st l) /\ numIterations (st l') = numIterations (st l) /\
    pJ l' = pJ l /\ dx l' = dx l /\ world l' = eCallback E DESIGN_VARIABLES_UPDATED w /\ lsf l' = lsf l /\ log l' = OApply :: log l /\ prevFailed l' = prevFailed l.
  Proof. intros l dX w H. unfold apply_step. rewrite H. repeat split. Qed.

  Lemma judge_spec : forall (l : @loopst W D),
    let l' := judge_step E l in
    dx l' = dx l /\ iterations (st l') = iterations (st l) + 1 /\ numIterations (st l') = iterations (st l) + 1 /\
    conv (st l') = conv (st l) /\ numJacobianEvaluations (st l') = numJacobianEvaluations (st l) /\ JStart (st l') = JStart (st l) /\
    numErrorEvaluations (st l') = numErrorEvaluations (st l) /\ lsf l' = lsf l /\
    (error (st l') = error (st l) /\ maxDeltaX (st l') = maxDeltaX (st l) /\ deltaError (st l') = fsub (pJ l) (error (st l)) /\
     if eRevertOnFailure E && flt (fsub (pJ l) (error (st l))) f0
     then world l' = eRevert E (world l) /\ pJ l' = pJ l /\ prevFailed l' = true /\ log l' = ORevert :: log l /\ failedIterations (st l') = failedIterations (st l) + 1
     else world l' = world l /\ pJ l' = error (st l) /\ prevFailed l' = (if eRevertOnFailure E then false else prevFailed l) /\
          log l' = log l /\ failedIterations (st l') = failedIterations (st l)).
  Proof.
    intros l. unfold judge_step. destruct (eRevertOnFailure E); cbn [andb]; [destruct (flt (fsub (pJ l) (error (st l))) f0)|]; repeat split.
  Qed.

  Lemma iteration_cases : forall l l', iteration l = Ok l' -> frame l l' /\ (
    (exists d w1, eSolve E (world l) (error (st l)) (prevFailed l) (dx l) = (false, d, w1) /\
       world l' = eCallback E LINEAR_SYSTEM_SOLVED w1 /\ log l' = OSolve false :: log l /\ pJ l' = pJ l /\ lsf l' = true /\ prevFailed l' = true /\
       iterations (st l') = iterations (st l) /\ failedIterations (st l') = failedIterations (st l) + 1 /\
       numIterations (st l') = numIterations (st l) /\ numErrorEvaluations (st l') = numErrorEvaluations (st l) /\
       error (st l') = error (st l) /\ maxDeltaX (st l') = maxDeltaX (st l) /\ deltaError (st l') = deltaError (st l)) \/
    (exists d w1 dX w2 c w3, eSolve E (world l) (error (st l)) (prevFailed l) (dx l) = (true, d, w1) /\
       eApply E (eCallback E LINEAR_SYSTEM_SOLVED w1) d = (dX, w2) /\
       eEval E (eCallback E DESIGN_VARIABLES_UPDATED w2) (pJ l) = (c, w3) /\
       lsf l' = lsf l /\ iterations (st l') = iterations (st l) + 1 /\ numIterations (st l') = iterations (st l) + 1 /\
       numErrorEvaluations (st l') = numErrorEvaluations (st l) + 1 /\
       error (st l') = c /\ maxDeltaX (st l') = dX /\ deltaError (st l') = fsub (pJ l) c /\
       ((eRevertOnFailure E && regression (pJ l) c = true /\ world l' = eRevert E w3 /\ pJ l' = pJ l /\ prevFailed l' = true /\
           log l' = ORevert :: OEval c :: OApply :: OSolve true :: log l /\ failedIterations (st l') = failedIterations (st l) + 1) \/
        (eRevertOnFailure E && regression (pJ l) c = false /\ world l' = w3 /\ pJ l' = c /\
           prevFailed l' = (if eRevertOnFailure E then false else prevFailed l) /\
           log l' = OEval c :: OApply :: OSolve true :: log l /\ failedIterations (st l') = failedIterations (st l))))).
  Proof.
    intros l l' H. unfold Optimizer2_Model.iteration in H.
    destruct (eSolve E (world l) (error (st l)) (prevFailed l) (dx l)) as [[ok d] w1] eqn:S.
    destruct (eSize E w1 d); try discriminate.
    match type of H with Ok (if ok then judge_step E (evaluateError E (apply_step E ?x)) else _) = _ => set (l1 := x) in H end.
    assert (H' : l' = if ok then judge_step E (evaluateError E (apply_step E l1)) else solve_failed l1) by congruence. clear H. rename H' into H.
    destruct ok.
    - destruct (eApply E (eCallback E LINEAR_SYSTEM_SOLVED w1) d) as [dX w2] eqn:A.
      pose proof (apply_spec l1 dX w2 A) as Q2. cbv zeta in Q2. set (l2 := apply_step E l1) in *.
      destruct (eEval E (eCallback E DESIGN_VARIABLES_UPDATED w2) (pJ l)) as [c w3] eqn:V.
      destruct Q2 as (a1 & a2 & a3 & a4 & a5 & a6 & a7 & a8 & a9 & a10 & a11 & a12 & a13 & a14 & a15).
      assert (eEval E (world l2) (pJ l2) = (c, w3)) as V' by (rewrite a12, a10; exact V).
      pose proof (eval_spec l2 c w3 V') as Q3. cbv zeta in Q3. set (l3 := evaluateError E l2) in *.
      destruct Q3 as (b1 & b2 & b3 & b4 & b5 & b6 & b7 & b8 & b9 & b10 & b11 & b12 & b13 & b14 & b15).
      pose proof (judge_spec l3) as Q4. cbv zeta in Q4. set (l4 := judge_step E l3) in *. subst l'.
      destruct Q4 as (c1 & c2 & c3 & c4 & c5 & c6 & c7 & c8 & c9).
      assert (error (st l3) = c) as e1 by auto. assert (pJ l3 = pJ l) as e2 by (rewrite b10, a10; reflexivity).
      assert (log l3 = OEval c :: OApply :: OSolve true :: log l) as e3 by (rewrite b14, a14; reflexivity).
      assert (iterations (st l3) = iterations (st l)) as e4 by (rewrite b7, a7; reflexivity).
      assert (failedIterations (st l3) = failedIterations (st l)) as e5 by (rewrite b8, a8; reflexivity).
      split; [repeat split; [rewrite c6, b6, a6; reflexivity|rewrite c5, b5, a5; reflexivity|rewrite c4, b4, a4; reflexivity]|].
      right. exists d, w1, dX, w2, c, w3.
      split; [reflexivity|]. split; [exact A|]. split; [exact V|].
      split; [rewrite c8, b13, a13; reflexivity|].
      split; [rewrite c2, e4; reflexivity|]. split; [rewrite c3, e4; reflexivity|].
      split; [rewrite c7, b3, a3; reflexivity|].
      destruct c9 as (d1 & d2 & d3 & d4).
      split; [congruence|]. split; [rewrite d2, b2, a2; reflexivity|]. split; [rewrite d3; congruence|].
      rewrite e1, e2 in d4. rewrite b12, e3, e5 in d4. unfold regression.
      destruct (eRevertOnFailure E && flt (fsub (pJ l) c) f0); [left|right]; destruct d4 as (? & ? & ? & ? & ?); repeat (split; [assumption || reflexivity|]).
      + assumption.
      + split; [|tauto]. assert (prevFailed l3 = prevFailed l) as e6 by (rewrite b15, a15; reflexivity). rewrite <- e6. assumption.
    - subst l'. split; [repeat split|]. left. exists d, w1. repeat split.
  Qed.

  Lemma steps_tried_snoc : forall os o, steps_tried (os ++ [o]) = steps_tried os + match o with SolveFailed => 0 | _ => 1 end.
  Proof. intros. unfold steps_tried. rewrite filter_app, app_length. destruct o; cbn; lia. Qed.
  Lemma failures_snoc : forall os o, failures (os ++ [o]) = failures os + match o with Accepted _ => 0 | _ => 1 end.
  Proof. intros. unfold failures. rewrite filter_app, app_length. destruct o; cbn; lia. Qed.
  Lemma current_app : forall os J t, current J (os ++ t) = current (current J os) t.
  Proof. induction os as [|[]]; cbn; auto. Qed.
  Lemma judged_app : forall rof os J t, judged rof J (os ++ t) <-> judged rof J os /\ judged rof (current J os) t.
  Proof.
    induction os as [|[]]; intros; cbn.
    - tauto.
    - apply IHos.
    - rewrite IHos. tauto.
    - rewrite IHos. tauto.
  Qed.
  Lemma walk_app : forall V (step : V -> V -> Prop) cost os v t v',
    walk step cost v (os ++ t) v' <-> exists u, walk step cost v os u /\ walk step cost u t v'.
  Proof.
    induction os as [|[]]; intros; cbn.
    - split; [intros; exists v; auto|intros (u & -> & H); auto].
    - apply IHos.
    - split.
      + intros (u & H1 & H2 & H3). apply IHos in H3. destruct H3 as (x & H3 & H4). exists x. split; auto. exists u. auto.
      + intros (x & (u & H1 & H2 & H3) & H4). exists u. repeat split; auto. apply IHos. exists x. auto.
    - split.
      + intros (H1 & H3). apply IHos in H3. destruct H3 as (x & H3 & H4). exists x. auto.
      + intros (x & (H1 & H3) & H4). split; auto. apply IHos. exists x. auto.
  Qed.

  Record inv (s0 : status) (J0 : b64) (os : list outcome) (l : @loopst W D) : Prop := mkInv {
    i_log : rev (log l) = OEval J0 :: flat_map actions os;
    i_start : JStart (st l) = J0;
    i_pJ : pJ l = current J0 os;
    i_judged : judged (eRevertOnFailure E) J0 os;
    i_it : iterations (st l) = iterations s0 + steps_tried os;
    i_num : numIterations (st l) = iterations (st l);
    i_fail : failedIterations (st l) = failedIterations s0 + failures os;
    i_nJ : numJacobianEvaluations (st l) = numJacobianEvaluations s0 + Z.of_nat (length os);
    i_nE : numErrorEvaluations (st l) = numErrorEvaluations s0 + 1 + steps_tried os;
    i_lsf : lsf l = true <-> In SolveFailed os;
    i_lim1 : iterations (st l) <= Z.max (iterations s0) (maxIterations opt);
    i_lim2 : failedIterations (st l) <= Z.max (failedIterations s0) (maxIterations opt);
    i_conv : conv (st l) = conv s0 }.

  Lemma flat_map_snoc : forall os o, flat_map actions (os ++ [o]) = flat_map actions os ++ actions o.
  Proof. intros. rewrite flat_map_app. cbn. rewrite app_nil_r. auto. Qed.

  Lemma In_SF_snoc : forall os o, In SolveFailed (os ++ [o]) <-> In SolveFailed os \/ o = SolveFailed.
  Proof. intros. rewrite in_app_iff. cbn. intuition. Qed.

  Lemma inv_step : forall s0 J0 os l l', inv s0 J0 os l -> continue_ opt l = true -> iteration l = Ok l' ->
    exists o, inv s0 J0 (os ++ [o]) l' /\
      match o with
      | SolveFailed => fst (fst (eSolve E (world l) (error (st l)) (prevFailed l) (dx l))) = false
      | _ => fst (fst (eSolve E (world l) (error (st l)) (prevFailed l) (dx l))) = true end.
  Proof.
    intros s0 J0 os l l' I C H. apply iteration_cases in H. destruct H as ((F1 & F2 & F3) & H).
    unfold continue_ in C. apply andb_true_iff in C. destruct C as [C _]. apply andb_true_iff in C. destruct C as [C1 C2].
    apply Z.ltb_lt in C1, C2. destruct I.
    destruct H as [(d & w1 & S & H1 & H2 & H3 & H4 & H4' & H5 & H6 & H7 & H8 & _)|(d & w1 & dX & w2 & c & w3 & S & A & V & H1 & H2 & H3 & H4 & H5 & _ & _ & [H|H])].
    - exists SolveFailed. rewrite S; split; auto. constructor; rewrite ?steps_tried_snoc, ?failures_snoc, ?current_app, ?app_length, ?flat_map_snoc, ?In_SF_snoc; cbn [current actions length]; try lia; try congruence.
      + rewrite H2; cbn [rev]. rewrite i_log0. reflexivity.
      + apply judged_app. cbn. auto.
      + split; auto.
    - destruct H as (R & Wl & P & _ & L & Fl). exists (Rejected c). rewrite S; split; auto.
      constructor; rewrite ?steps_tried_snoc, ?failures_snoc, ?current_app, ?app_length, ?flat_map_snoc, ?In_SF_snoc; cbn [current actions length]; try lia; try congruence.
      + rewrite L; cbn [rev]. rewrite i_log0. rewrite <- !app_assoc. reflexivity.
      + apply judged_app. split; auto. cbn. split; auto. congruence.
      + rewrite H1. split; [intros; left; tauto|intros [Q|Q]; [tauto|discriminate]].
    - destruct H as (R & Wl & P & _ & L & Fl). exists (Accepted c). rewrite S; split; auto.
      constructor; rewrite ?steps_tried_snoc, ?failures_snoc, ?current_app, ?app_length, ?flat_map_snoc, ?In_SF_snoc; cbn [current actions length]; try lia; try congruence.
      + rewrite L; cbn [rev]. rewrite i_log0. rewrite <- !app_assoc. reflexivity.
      + apply judged_app. split; auto. cbn. split; auto. congruence.
      + rewrite H1. split; [intros; left; tauto|intros [Q|Q]; [tauto|discriminate]].
  Qed.

  Lemma inv_prologue : forall s d w, inv s (error (st (prologue E opt s d w))) [] (prologue E opt s d w).
  Proof.
    intros. unfold prologue, evaluateError; cbn [world pJ st].
    destruct (eEval E w (fopp (fz 1))) as [e w1]. cbn [st error log world dx].
    constructor; cbn [st JStart pJ current iterations numIterations failedIterations numJacobianEvaluations numErrorEvaluations conv lsf length log rev flat_map app steps_tried failures filter In actions];
      unfold steps_tried, failures; cbn; try lia; try reflexivity; try exact I.
  Qed.

  (** the run, summarised *)
  Theorem optimize_summary : forall s d w l, optimize E opt s d w = Some (Ok l) ->
    exists os, rev (log l) = OEval (JStart (st l)) :: flat_map actions os /\
      JFinal (st l) = current (JStart (st l)) os /\ error (st l) = JFinal (st l) /\
      judged (eRevertOnFailure E) (JStart (st l)) os /\
      iterations (st l) = iterations s + steps_tried os /\ numIterations (st l) = iterations (st l) /\
      failedIterations (st l) = failedIterations s + failures os /\
      numJacobianEvaluations (st l) = numJacobianEvaluations s + Z.of_nat (length os) /\
      numErrorEvaluations (st l) = numErrorEvaluations s + 1 + steps_tried os /\
      (srvLinearSolverFailure (st l) = true <-> In SolveFailed os) /\
      iterations (st l) <= Z.max (iterations s) (maxIterations opt) /\
      failedIterations (st l) <= Z.max (failedIterations s) (maxIterations opt) /\
      (maxIterations opt <= iterations (st l) \/ maxIterations opt <= failedIterations (st l) \/
       (~ In SolveFailed os /\
        (fgt (dXFinal (st l)) (convergenceDeltaX opt) = false \/ fgt (fabs (dJFinal (st l))) (convergenceDeltaError opt) = false))).
  Proof.
    intros s d w l H. unfold optimize, optimize_fuel in H.
    destruct (loop (enough opt s) (prologue E opt s d w)) as [[l'| |]|] eqn:L; try discriminate. injection H as <-.
    apply (loop_ind (fun l => exists os, inv s (error (st (prologue E opt s d w))) os l)) in L.
    - destruct L as ((os & I) & C). destruct I. exists os. unfold epilogue. cbn [st log JStart JFinal error iterations numIterations failedIterations numJacobianEvaluations numErrorEvaluations srvLinearSolverFailure dXFinal dJFinal].
      rewrite i_start0. repeat (split; [assumption || tauto|]).
      unfold continue_ in C. apply andb_false_iff in C. destruct C as [C|C].
      + apply andb_false_iff in C. destruct C as [C|C]; apply Z.ltb_ge in C; auto.
      + right; right. apply orb_false_iff in C. destruct C as [C1 C2]. split.
        * intros Q. apply i_lsf0 in Q. congruence.
        * apply andb_false_iff in C1. tauto.
    - intros x x' (os & I) C It. destruct (inv_step _ _ _ _ _ I C It) as (o & I' & _). eauto.
    - exists []. apply inv_prologue.
  Qed.

  (** termination *)
  Lemma loop_total : forall f (l : @loopst W D), (Z.to_nat (maxIterations opt - iterations (st l)) + Z.to_nat (maxIterations opt - failedIterations (st l)) <= f)%nat ->
    loop f l <> None.
  Proof.
    induction f; intros l Hf; cbn.
    - destruct (continue_ opt l) eqn:C; try discriminate. exfalso.
      unfold continue_ in C. apply andb_true_iff in C. destruct C as [C _]. apply andb_true_iff in C. destruct C as [C1 C2].
      apply Z.ltb_lt in C1, C2. lia.
    - destruct (continue_ opt l) eqn:C; try discriminate. destruct (iteration l) as [l'| |] eqn:I; try discriminate.
      apply IHf. unfold continue_ in C. apply andb_true_iff in C. destruct C as [C _]. apply andb_true_iff in C. destruct C as [C1 C2].
      apply Z.ltb_lt in C1, C2. apply iteration_cases in I. destruct I as (_ & I).
      destruct I as [(d & w1 & S & H1 & H2 & H3 & H4 & H4' & H5 & H6 & _)|(d & w1 & dX & w2 & c & w3 & S & A & V & H1 & H2 & H3 & H4 & H5 & _ & _ & [H|H])].
      + lia.
      + destruct H as (_ & _ & _ & _ & _ & H). lia.
      + destruct H as (_ & _ & _ & _ & _ & H). lia.
  Qed.
  Lemma prologue_counts : forall s d w, iterations (st (prologue E opt s d w)) = iterations s /\ failedIterations (st (prologue E opt s d w)) = failedIterations s.
  Proof. intros. unfold prologue, evaluateError; cbn [world pJ st]. destruct (eEval E w (fopp (fz 1))). auto. Qed.
  Theorem optimize_total : forall s d w, optimize E opt s d w <> None.
  Proof.
    intros s d w. unfold optimize, optimize_fuel.
    pose proof (loop_total (enough opt s) (prologue E opt s d w)) as H. destruct (prologue_counts s d w) as [P1 P2]. rewrite P1, P2 in H.
    destruct (loop (enough opt s) (prologue E opt s d w)) as [[]|]; try discriminate. exfalso. apply H; auto.
  Qed.
  Lemma loop_not_UB : forall f l, loop f l <> Some UB.
  Proof.
    induction f; intros l; cbn; destruct (continue_ opt l); try discriminate.
    destruct (iteration l) eqn:I; try discriminate; auto.
    unfold Optimizer2_Model.iteration in I. destruct (eSolve E (world l) (error (st l)) (prevFailed l) (dx l)) as [[ok d] w1]. destruct (eSize E w1 d); discriminate.
  Qed.
  Lemma loop_no_throw : (forall w d, eSize E w d = true) -> forall f l, loop f l <> Some Throw.
  Proof.
    intros Hs. induction f; intros l; cbn; destruct (continue_ opt l); try discriminate.
    destruct (iteration l) eqn:I; try discriminate; auto.
    unfold Optimizer2_Model.iteration in I. destruct (eSolve E (world l) (error (st l)) (prevFailed l) (dx l)) as [[ok d] w1]. rewrite Hs in I. discriminate.
  Qed.
  Theorem optimize_returns : (forall w d, eSize E w d = true) -> forall s d w, exists l, optimize E opt s d w = Some (Ok l).
  Proof.
    intros Hs s d w. pose proof (optimize_total s d w) as H. unfold optimize, optimize_fuel in *.
    pose proof (loop_not_UB (enough opt s) (prologue E opt s d w)). pose proof (loop_no_throw Hs (enough opt s) (prologue E opt s d w)).
    destruct (loop (enough opt s) (prologue E opt s d w)) as [[]|]; try congruence. eauto.
  Qed.

  (** C21 *)
  Lemma regression_false_le : forall J c, isnan J = false -> isnan c = false -> regression J c = false -> fle c J = true.
  Proof. intros. unfold regression in *. rewrite fsub_lt0 in * by auto. apply flt_le_false; auto. Qed.
  Lemma regression_true_le : forall J c, isnan J = false -> isnan c = false -> regression J c = true -> fle J c = true.
  Proof.
    intros J c HJ Hc H. unfold regression in *. rewrite fsub_lt0 in H by auto. apply flt_le; auto.
  Qed.
  Lemma current_nan : forall os J, isnan J = false -> (forall c, In (OEval c) (flat_map actions os) -> isnan c = false) -> isnan (current J os) = false.
  Proof.
    induction os as [|[]]; intros J HJ H; cbn; auto.
    - apply IHos; auto. intros c Hc. apply H. cbn. auto.
    - apply IHos; [apply H; cbn; auto|]. intros c' Hc. apply H. cbn. auto.
    - apply IHos; auto. intros c' Hc. apply H. cbn. auto.
  Qed.
  Lemma judged_min : forall os J, judged true J os -> isnan J = false -> (forall c, In (OEval c) (flat_map actions os) -> isnan c = false) ->
    fle (current J os) J = true /\ forall c, In (OEval c) (flat_map actions os) -> fle (current J os) c = true.
  Proof.
    induction os as [|[]]; intros J Hj HJ H; cbn in Hj |- *.
    - split; [apply fle_refl; auto|tauto].
    - destruct (IHos J Hj HJ) as [A B]; [intros c Hc; apply H; cbn; auto|]. split; auto. intros c [Q|Q]; [discriminate|auto].
    - destruct Hj as [R Hj]. assert (isnan c = false) as Nc by (apply H; cbn; auto).
      destruct (IHos c Hj Nc) as [A B]; [intros c' Hc; apply H; cbn; auto|].
      pose proof (regression_false_le J c HJ Nc R) as L. split; [eapply fle_trans; eauto|].
      intros c' [Q|[Q|[Q|Q]]]; try discriminate; auto. injection Q as <-. auto.
    - destruct Hj as [R Hj]. assert (isnan c = false) as Nc by (apply H; cbn; auto).
      destruct (IHos J Hj HJ) as [A B]; [intros c' Hc; apply H; cbn; auto|].
      pose proof (regression_true_le J c HJ Nc R) as L. split; auto.
      intros c' [Q|[Q|[Q|[Q|Q]]]]; try discriminate; auto. injection Q as <-. eapply fle_trans; eauto.
  Qed.
  Lemma current_in : forall os J, In (OEval (current J os)) (OEval J :: flat_map actions os).
  Proof.
    induction os as [|[]]; intros J; cbn [current flat_map actions app].
    - left; auto.
    - destruct (IHos J) as [Q|Q]; [left; auto|right; right; auto].
    - destruct (IHos c) as [Q|Q]; [right; right; right; left; auto|right; right; right; right; auto].
    - destruct (IHos J) as [Q|Q]; [left; auto|right; right; right; right; right; auto].
  Qed.

  Theorem never_worse : forall s d w l, eRevertOnFailure E = true -> optimize E opt s d w = Some (Ok l) ->
    (forall c, In (OEval c) (log l) -> isnan c = false) ->
    fle (JFinal (st l)) (JStart (st l)) = true /\ error (st l) = JFinal (st l) /\
    In (OEval (JFinal (st l))) (log l) /\ (forall c, In (OEval c) (log l) -> fle (JFinal (st l)) c = true).
  Proof.
    intros s d w l RO H N. destruct (optimize_summary s d w l H) as (os & L & F & Er & Ju & _).
    rewrite RO in Ju.
    assert (forall o, In o (log l) <-> In o (OEval (JStart (st l)) :: flat_map actions os)) as IL.
    { intros o. rewrite <- L. apply in_rev. }
    assert (isnan (JStart (st l)) = false) as NS. { apply N. apply IL. cbn; auto. }
    assert (forall c, In (OEval c) (flat_map actions os) -> isnan c = false) as NO. { intros c Hc. apply N. apply IL. cbn; auto. }
    destruct (judged_min os _ Ju NS NO) as [A B]. rewrite <- F in *.
    split; auto. split; auto. split.
    - apply IL. rewrite F. apply current_in.
    - intros c Hc. apply IL in Hc. destruct Hc as [Q|Q]; [injection Q as <-; auto|auto].
  Qed.

  (** C22 *)
  Section State.
    Context {V : Type} (val saved : W -> V) (cost : V -> b64) (Fa : faithful E val saved cost).
    Definition moves (v u : V) : Prop := exists w d, val w = v /\ val (snd (eApply E w d)) = u.

    Lemma state_step : forall l l', iteration l = Ok l' -> pJ l = cost (val (world l)) ->
      pJ l' = cost (val (world l')) /\
      exists o, walk moves cost (val (world l)) [o] (val (world l')) /\ log l' = rev (actions o) ++ log l.
    Proof.
      intros l l' H P. apply iteration_cases in H. destruct H as (_ & H).
      destruct H as [(d & w1 & S & H1 & H2 & H3 & H4 & _)|(d & w1 & dX & w2 & c & w3 & S & A & Ev & H1 & H2 & H3 & H4 & H5 & _ & _ & H)].
      - pose proof (f_solve _ _ _ _ Fa (world l) (error (st l)) (prevFailed l) (dx l)) as Q. rewrite S in Q. cbn in Q.
        destruct (f_callback _ _ _ _ Fa LINEAR_SYSTEM_SOLVED w1) as [Q1 _]. rewrite H1, Q1, Q. split; [congruence|].
        exists SolveFailed. cbn. auto.
      - pose proof (f_solve _ _ _ _ Fa (world l) (error (st l)) (prevFailed l) (dx l)) as Q. rewrite S in Q. cbn in Q.
        destruct (f_callback _ _ _ _ Fa LINEAR_SYSTEM_SOLVED w1) as [Q1 _].
        pose proof (f_apply _ _ _ _ Fa (eCallback E LINEAR_SYSTEM_SOLVED w1) d) as Q2. rewrite A in Q2. cbn in Q2.
        destruct (f_callback _ _ _ _ Fa DESIGN_VARIABLES_UPDATED w2) as [Q3 Q3'].
        destruct (f_eval _ _ _ _ Fa (eCallback E DESIGN_VARIABLES_UPDATED w2) (pJ l)) as (Q4 & Q5 & Q6). rewrite Ev in Q4, Q5, Q6. cbn in Q4, Q5, Q6.
        assert (moves (val (world l)) (val w3)) as M.
        { exists (eCallback E LINEAR_SYSTEM_SOLVED w1), d. rewrite A. cbn. split; congruence. }
        assert (c = cost (val w3)) as Cc by congruence.
        destruct H as [(R & Wl & Pl & _ & L & Fl)|(R & Wl & Pl & _ & L & Fl)].
        + pose proof (f_revert _ _ _ _ Fa w3) as Q7. assert (val (world l') = val (world l)) as Vl by congruence.
          split; [congruence|]. exists (Rejected c). split; [|cbn; auto]. cbn. split; eauto.
        + subst w3. split; [congruence|]. exists (Accepted c). split; [|cbn; auto]. cbn. exists (val (world l')). auto.
    Qed.

    Lemma flat_actions_inj : forall a b, flat_map actions a = flat_map actions b -> a = b.
    Proof.
      induction a as [|x a]; destruct b as [|y b]; cbn; intros H; auto; try (destruct x; discriminate); try (destruct y; discriminate).
      destruct x, y; cbn in H; try discriminate; inversion H; subst; try (f_equal; apply IHa; assumption); exfalso.
      - destruct a as [|[]]; cbn in *; discriminate.
      - destruct b as [|[]]; cbn in *; discriminate.
    Qed.

    Theorem state_is_reported : forall s d w l, optimize E opt s d w = Some (Ok l) ->
      exists os, rev (log l) = OEval (JStart (st l)) :: flat_map actions os /\
        walk moves cost (val w) os (val (world l)) /\
        judged (eRevertOnFailure E) (JStart (st l)) os /\
        JStart (st l) = cost (val w) /\ JFinal (st l) = cost (val (world l)) /\ error (st l) = cost (val (world l)).
    Proof.
      intros s d w l H. destruct (optimize_summary s d w l H) as (os & L & F & Er & Ju & _).
      exists os. unfold optimize, optimize_fuel in H.
      destruct (loop (enough opt s) (prologue E opt s d w)) as [[l'| |]|] eqn:Lo; try discriminate. injection H as <-.
      set (J0 := error (st (prologue E opt s d w))) in *.
      assert (val (world (prologue E opt s d w)) = val w /\ J0 = cost (val w) /\ pJ (prologue E opt s d w) = J0 /\
        log (prologue E opt s d w) = [OEval J0] /\ JStart (st (prologue E opt s d w)) = J0) as (P1 & P2 & P3 & P4 & P5).
      { subst J0. unfold prologue, evaluateError. cbn [world pJ st].
        destruct (f_eval _ _ _ _ Fa w (fopp (fz 1))) as (Q4 & Q5 & Q6).
        destruct (eEval E w (fopp (fz 1))) as [e w1]. cbn in Q4, Q5, Q6. cbn [st error log world dx pJ JStart].
        destruct (f_callback _ _ _ _ Fa OPTIMIZATION_INITIALIZED (eStart E w1 e)) as [Q1 _]. rewrite Q1.
        pose proof (f_start _ _ _ _ Fa w1 e). repeat split; congruence. }
      assert ((exists os', rev (log l') = OEval J0 :: flat_map actions os' /\ walk moves cost (val w) os' (val (world l')) /\ pJ l' = cost (val (world l')) /\ JStart (st l') = J0) /\ continue_ opt l' = false) as [(os' & A1 & A2 & A3 & A4) _].
      { revert Lo. apply (loop_ind (fun l' => exists os', rev (log l') = OEval J0 :: flat_map actions os' /\ walk moves cost (val w) os' (val (world l')) /\ pJ l' = cost (val (world l')) /\ JStart (st l') = J0)).
        - intros x x' (os' & A1 & A2 & A3 & A4) C It.
          destruct (state_step x x' It A3) as (B1 & o & B2 & B3). exists (os' ++ [o]). rewrite flat_map_snoc.
          split; [rewrite B3, rev_app_distr, rev_involutive, A1; reflexivity|].
          split; [apply walk_app; eauto|]. split; auto.
          apply iteration_cases in It. destruct It as ((It & _) & _). congruence.
        - exists []. rewrite P4, P1. cbn [rev app flat_map walk]. repeat split; congruence. }
      unfold epilogue in *. cbn [st log JStart JFinal error world] in *.
      rewrite A4 in *. rewrite L in A1. injection A1 as A1. apply flat_actions_inj in A1. subst os'.
      repeat split; auto.
    Qed.
  End State.

  (** C26: the failure flag and what a failure does to the rest of the run *)
  Theorem failure_is_sticky : forall s d w l, optimize E opt s d w = Some (Ok l) ->
    (srvLinearSolverFailure (st l) = true <-> In (OSolve false) (log l)) /\
    (In (OSolve false) (log l) -> conv (st l) = MAX_ITERATIONS \/ conv (st l) = FAILURE).
  Proof.
    intros s d w l H. destruct (optimize_summary s d w l H) as (os & L & _ & _ & _ & _ & _ & _ & _ & _ & Fl & _).
    assert (In SolveFailed os <-> In (OSolve false) (log l)) as Q.
    { rewrite (in_rev (log l)), L. cbn. rewrite in_flat_map. split.
      - intros Hi. right. exists SolveFailed. cbn. auto.
      - intros [X|(o & Ho & X)]; [discriminate|]. destruct o; cbn in X; auto; intuition discriminate. }
    split; [tauto|]. intros Hi. apply Q in Hi. apply Fl in Hi.
    unfold optimize, optimize_fuel in H. destruct (loop (enough opt s) (prologue E opt s d w)) as [[l'| |]|]; try discriminate. injection H as <-.
    unfold epilogue in *. cbn [st conv srvLinearSolverFailure] in *. unfold final_convergence. rewrite Hi. cbn [orb].
    destruct (maxIterations opt <=? iterations (st l')); auto.
  Qed.

  (** C28: the convergence that Optimizer2 reports *)
  Theorem reported_convergence : forall s d w l, optimize E opt s d w = Some (Ok l) -> conv s = IN_PROGRESS ->
    match conv (st l) with
    | MAX_ITERATIONS => maxIterations opt <= iterations (st l)
    | FAILURE => In (OSolve false) (log l) \/ maxIterations opt <= failedIterations (st l)
    | DX => fle (dXFinal (st l)) (convergenceDeltaX opt) = true
    | DOBJECTIVE => fle (fabs (dJFinal (st l))) (convergenceDeltaError opt) = true
    | GRADIENT_NORM => False
    | IN_PROGRESS => isnan (dXFinal (st l)) = true \/ isnan (dJFinal (st l)) = true \/
                     isnan (convergenceDeltaX opt) = true \/ isnan (convergenceDeltaError opt) = true
    end.
  Proof.
    intros s d w l H Hc. destruct (optimize_summary s d w l H) as (os & L & _ & _ & _ & _ & _ & _ & _ & _ & Fl & _ & _ & Stop).
    destruct (failure_is_sticky s d w l H) as [Q _].
    unfold optimize, optimize_fuel in H. destruct (loop (enough opt s) (prologue E opt s d w)) as [[l'| |]|] eqn:Lo; try discriminate. injection H as <-.
    assert (conv (st l') = IN_PROGRESS) as Cv.
    { apply (loop_ind (fun l => exists os, inv s (error (st (prologue E opt s d w))) os l)) in Lo.
      - destruct Lo as ((os' & I) & _). destruct I. congruence.
      - intros x x' (os' & I) C It. destruct (inv_step _ _ _ _ _ I C It) as (o & I' & _). eauto.
      - exists []. apply inv_prologue. }
    unfold epilogue in *. cbn [st conv iterations failedIterations dXFinal dJFinal srvLinearSolverFailure log maxDeltaX deltaError] in *.
    unfold final_convergence in *. rewrite Cv.
    destruct (Z.leb_spec (maxIterations opt) (iterations (st l'))); auto.
    destruct (lsf l' || (maxIterations opt <=? failedIterations (st l'))) eqn:O.
    { apply orb_true_iff in O. destruct O as [O|O]; [left; tauto|right; apply Z.leb_le; auto]. }
    apply orb_false_iff in O. destruct O as [O1 O2]. apply Z.leb_gt in O2.
    destruct (fle (maxDeltaX (st l')) (convergenceDeltaX opt)) eqn:L1; auto.
    destruct (fle (fabs (deltaError (st l'))) (convergenceDeltaError opt)) eqn:L2; auto.
    destruct Stop as [?|[?|(_ & Stop)]]; try lia.
    assert (forall x y, fle x y = false -> fgt x y = false -> isnan x = true \/ isnan y = true) as K.
    { intros x y Hl Hg. destruct (isnan x) eqn:Nx; auto. destruct (isnan y) eqn:Ny; auto. exfalso.
      unfold fgt in Hg. apply flt_le_false in Hg; auto. congruence. }
    destruct Stop as [S|S].
    - destruct (K _ _ L1 S); auto.
    - destruct (K _ _ L2 S) as [X|X]; auto. right; left. rewrite isnan_fabs in X. auto.
  Qed.
End P.

Lemma no_room : forall {W D} (E : @env W D) opt s d w l, maxIterations opt <= iterations s -> optimize E opt s d w = Some (Ok l) ->
  log l = [OEval (JStart (st l))] /\ conv (st l) = MAX_ITERATIONS /\ iterations (st l) = iterations s /\ failedIterations (st l) = failedIterations s.
Proof.
  intros W D E opt s d w l Hm H. unfold optimize, optimize_fuel in H.
  destruct (prologue_counts E opt s d w) as [P1 P2].
  assert (continue_ opt (prologue E opt s d w) = false) as C.
  { unfold continue_. rewrite P1. destruct (Z.ltb_spec (iterations s) (maxIterations opt)); [lia|reflexivity]. }
  assert (forall f, loop E opt f (prologue E opt s d w) = Some (Ok (prologue E opt s d w))) as Lo.
  { intros f. destruct f; cbn [loop]; rewrite C; auto. }
  rewrite Lo in H. injection H as <-. unfold epilogue, final_convergence. cbn [st log JStart conv iterations failedIterations]. rewrite P1, P2.
  destruct (Z.leb_spec (maxIterations opt) (iterations s)); [|lia]. repeat split.
  unfold prologue, evaluateError. cbn [world pJ]. destruct (eEval E w (fopp (fz 1))). reflexivity.
Qed.

Lemma count_apply : forall os, Z.of_nat (length (filter (fun o => match o with OApply => true | _ => false end) (flat_map actions os))) = steps_tried os.
Proof.
  unfold steps_tried. induction os as [|[]]; cbn [flat_map actions app filter]; auto; cbn [length]; lia.
Qed.
Lemma count_fail : forall os, Z.of_nat (length (filter (fun o => match o with ORevert | OSolve false => true | _ => false end) (flat_map actions os))) = failures os.
Proof.
  unfold failures. induction os as [|[]]; cbn [flat_map actions app filter]; auto; cbn [length]; lia.
Qed.
Lemma filter_rev : forall A (f : A -> bool) l, length (filter f (rev l)) = length (filter f l).
Proof.
  induction l; cbn; auto. rewrite filter_app, app_length, IHl. cbn. destruct (f a); cbn; lia.
Qed.

Theorem counts : forall {W D} (E : @env W D) opt s d w l, optimize E opt s d w = Some (Ok l) ->
  let n (f : op -> bool) := Z.of_nat (length (filter f (log l))) in
  iterations (st l) = iterations s + n (fun o => match o with OApply => true | _ => false end) /\
  failedIterations (st l) = failedIterations s + n (fun o => match o with ORevert | OSolve false => true | _ => false end) /\
  numErrorEvaluations (st l) = numErrorEvaluations s + n (fun o => match o with OEval _ => true | _ => false end) /\
  numJacobianEvaluations (st l) = numJacobianEvaluations s + n (fun o => match o with OSolve _ => true | _ => false end) /\
  numIterations (st l) = iterations (st l) /\
  iterations (st l) <= Z.max (iterations s) (maxIterations opt) /\
  failedIterations (st l) <= Z.max (failedIterations s) (maxIterations opt).
Proof.
  intros W D E opt s d w l H n. destruct (optimize_summary E opt s d w l H) as (os & L & _ & _ & _ & I & N & Fa & NJ & NE & _ & Li1 & Li2 & _).
  assert (forall f, n f = Z.of_nat (length (filter f (OEval (JStart (st l)) :: flat_map actions os)))) as En.
  { intros f. unfold n. rewrite <- L, filter_rev. reflexivity. }
  rewrite !En. cbn [filter]. rewrite count_apply, count_fail.
  assert (Z.of_nat (length (OEval (JStart (st l)) :: filter (fun o => match o with OEval _ => true | _ => false end) (flat_map actions os))) = 1 + steps_tried os) as A1.
  { cbn [length]. unfold steps_tried. clear. assert (length (filter (fun o => match o with OEval _ => true | _ => false end) (flat_map actions os)) = length (filter (fun o => match o with SolveFailed => false | _ => true end) os)).
    { induction os as [|[]]; cbn [flat_map actions app filter]; auto; cbn [length]; lia. } lia. }
  assert (Z.of_nat (length (filter (fun o => match o with OSolve _ => true | _ => false end) (flat_map actions os))) = Z.of_nat (length os)) as A2.
  { clear. induction os as [|[]]; cbn [flat_map actions app filter]; auto; cbn [length]; lia. }
  rewrite A1, A2. repeat split; auto; lia.
Qed.
