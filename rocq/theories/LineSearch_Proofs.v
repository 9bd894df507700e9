From Coq Require Import ZArith Reals Lra List Bool Lia.
From Verif Require Import Lib_Res Lib_Num LineSearch_Model LineSearch_Spec.
Import ListNotations.

Section P.
  Context {N : Type} {A : Num N} {W G : Type}.
  Variables (errorOf : W -> N) (gradOf : W -> G) (slope : G -> N) (moveBy : W -> N -> W).
  Variable o : lsoptions N.
  Notation zero := (nlit 0 1).
  Notation ST := (lstate N W G).
  Notation upE := (updateError errorOf (G := G)). Notation upD := (updateErrorDerivative gradOf slope).
  Notation app := (applyStateUpdate moveBy (G := G)).

  (* what is always true of the cached values *)
  Definition sound (l : ST) : Prop :=
    (l_eOut l = false -> l_error l = errorOf (l_world l)) /\
    (l_dOut l = false -> l_grad l = gradOf (l_world l) /\ l_derror l = slope (l_grad l)).

  Lemma current_sound : forall l, current errorOf gradOf slope l -> sound l.
  Proof. intros l (H1 & H2 & H3 & H4 & H5). split; auto. Qed.

  Lemma app_sound : forall s l, sound l -> sound (app s l).
  Proof.
    intros s l (H1 & H2). unfold applyStateUpdate. destruct (negb _); cbn; split; cbn; auto; discriminate.
  Qed.
  Lemma app_step : forall s l, l_step (app s l) = s.
  Proof. intros. unfold applyStateUpdate. destruct (negb _); reflexivity. Qed.
  Lemma app_reached : forall w0 s l, reached moveBy w0 (l_step l) (l_world l) -> reached moveBy w0 s (l_world (app s l)).
  Proof.
    intros w0 s l H. unfold applyStateUpdate, lit. destruct (neq (nsub s (l_step l)) zero) eqn:E; cbn.
    - eapply reach_same; eauto.
    - apply reach_move. auto.
  Qed.
  Lemma upE_sound : forall l, sound l -> sound (upE l).
  Proof. intros l (H1 & H2). unfold updateError. destruct (l_eOut l) eqn:E; split; cbn; auto. Qed.
  Lemma upD_sound : forall l, sound l -> sound (upD l).
  Proof. intros l (H1 & H2). unfold updateErrorDerivative. destruct (l_dOut l) eqn:E; split; cbn; auto. Qed.
  Lemma upE_frame : forall l, l_step (upE l) = l_step l /\ l_world (upE l) = l_world l /\ l_eOut (upE l) = false /\ l_dOut (upE l) = l_dOut l
      /\ l_errorOld (upE l) = l_errorOld l.
  Proof. intros l. unfold updateError. destruct (l_eOut l) eqn:E; cbn; auto. Qed.
  Lemma upD_frame : forall l, l_step (upD l) = l_step l /\ l_world (upD l) = l_world l /\ l_dOut (upD l) = false /\ l_eOut (upD l) = l_eOut l
      /\ l_error (upD l) = l_error l /\ l_errorOld (upD l) = l_errorOld l.
  Proof. intros l. unfold updateErrorDerivative. destruct (l_dOut l) eqn:E; cbn; auto 7. Qed.

  Lemma sound_current : forall l, sound l -> l_eOut l = false -> l_dOut l = false -> current errorOf gradOf slope l.
  Proof. intros l (H1 & H2) E D. destruct (H2 D). repeat split; auto. Qed.

  (** ** wolfe1 *)
  Lemma test_converged : forall s e d stage st, s_status s = RUNNING -> dcsrch_test s e d = (stage, st) -> st = CONVERGED ->
    nle e (nadd (s_finit s) (nmul (stp (s_dc s)) (s_gtest s))) = true /\ nle (nabs d) (s_neg s) = true.
  Proof.
    intros s e d stage st R H C. subst st. unfold dcsrch_test in H.
    destruct (nle e _ && nle (nabs d) (s_neg s)) eqn:E.
    - apply andb_true_iff in E. auto.
    - injection H as _ H. destruct (_ || _ || _ || _) in H; congruence.
  Qed.

  Lemma update_const : forall s e d st s', updateStepLength s e d = (st, s') ->
    s_finit s' = s_finit s /\ s_gtest s' = s_gtest s /\ s_neg s' = s_neg s /\ s_min s' = s_min s /\ s_max s' = s_max s /\ s_xtol s' = s_xtol s /\
    stp (s_dc s') = st /\ s_stage s' <> O.
  Proof.
    intros s e d st s' H. unfold updateStepLength in H. destruct (s_stage s) as [|n] eqn:Es.
    - injection H as <- <-. cbn. repeat split; auto.
    - destruct (dcsrch_test s e d) as [stage status] eqn:T.
      assert (SG : stage <> O).
      { unfold dcsrch_test in T. rewrite Es in T. injection T as T _. subst. destruct (_ && _ && _) in |- *; lia. }
      cbv zeta in H. destruct status; injection H as <- <-; cbn; repeat split; auto;
      unfold dcsrch_bound; cbv zeta; destruct (brackt _); cbn; auto.
  Qed.

  Lemma update_running : forall s e d st s', updateStepLength s e d = (st, s') -> s_status s = RUNNING ->
    s_stage s = O -> s_status s' = RUNNING.
  Proof. intros s e d st s' H R E. unfold updateStepLength in H. rewrite E in H. injection H as <- <-. exact R. Qed.

  Lemma update_converged : forall s e d st s', updateStepLength s e d = (st, s') -> s_status s = RUNNING -> s_status s' = CONVERGED ->
    nle e (nadd (s_finit s) (nmul (stp (s_dc s)) (s_gtest s))) = true /\ nle (nabs d) (s_neg s) = true /\ s_stage s <> O.
  Proof.
    intros s e d st s' H R C. unfold updateStepLength in H. destruct (s_stage s) eqn:Es.
    - injection H as <- <-. cbn in C. congruence.
    - destruct (dcsrch_test s e d) as [stage status] eqn:T. pose proof (test_converged s e d stage status R T) as TC.
      cbv zeta in H. destruct status; injection H as <- <-.
      + exfalso. revert C. unfold dcsrch_bound; cbv zeta; destruct (brackt _); cbn; congruence.
      + destruct TC; auto.
      + cbn in C. congruence.
  Qed.

  Definition inv1 (w0 : W) (e0 d0 : N) (s : dcsrch N) (l : ST) : Prop :=
    current errorOf gradOf slope l /\ reached moveBy w0 (l_step l) (l_world l) /\ (s_stage s <> O -> l_step l = stp (s_dc s)) /\
    s_status s = RUNNING /\ s_finit s = e0 /\ s_gtest s = nmul (c1 o) d0 /\ s_neg s = nmul (nopp (c2 o)) d0.

  Lemma wolfe1_loop_inv : forall w0 e0 d0 n s l ok rest l', inv1 w0 e0 d0 s l ->
    wolfe1_loop errorOf gradOf slope moveBy n s l = Ok (ok, rest, l') ->
    current errorOf gradOf slope l' /\ reached moveBy w0 (l_step l') (l_world l') /\
    (ok = true -> nle (l_error l') (nadd e0 (nmul (l_step l') (nmul (c1 o) d0))) = true /\
                  nle (nabs (l_derror l')) (nmul (nopp (c2 o)) d0) = true).
  Proof.
    intros w0 e0 d0. induction n as [|n IH]; intros s l ok rest l' I H; cbn in H.
    - injection H as <- <- <-. destruct I as (C & Rd & _). repeat split; auto; try discriminate; try apply C.
    - destruct I as (C & Rd & St & Ru & F & Gt & Ng). pose proof C as (E1 & E2 & E3 & E4 & E5).
      unfold getError, getErrorDerivative in H. rewrite E1, E2 in H. cbn [bind] in H.
      destruct (updateStepLength s (l_error l) (l_derror l)) as [st s'] eqn:U.
      pose proof (update_const _ _ _ _ _ U) as (K1 & K2 & K3 & _ & _ & _ & K7 & K8).
      destruct (s_status s') eqn:S'.
      + eapply IH; [|exact H]. clear IH H.
        pose proof (upE_frame (app st l)) as (U1 & U2 & U3 & U4 & _).
        pose proof (upD_frame (upE (app st l))) as (V1 & V2 & V3 & V4 & V5 & _).
        split; [|split; [|repeat split; try congruence]].
        * apply sound_current; [apply upD_sound, upE_sound, app_sound, current_sound; exact C|congruence|congruence].
        * rewrite V1, V2, U1, U2, app_step. apply app_reached. exact Rd.
        * rewrite V1, U1, app_step, K7. reflexivity.
      + injection H as <- <- <-. destruct (update_converged _ _ _ _ _ U Ru S') as (W1 & W2 & W3).
        rewrite F, Gt in W1. rewrite Ng in W2. rewrite <- (St W3) in W1. auto.
      + injection H as <- <- <-. split; auto. split; auto. discriminate.
  Qed.

  (* On success: nothing was moved because the slope is zero, or the tests hold in the arithmetic of the machine. *)
  Lemma wolfe1_any : forall l ok l', ready errorOf gradOf slope l -> lineSearchWolfe1 errorOf gradOf slope moveBy o l = Ok (ok, l') ->
    current errorOf gradOf slope l' /\ reached moveBy (l_world l) (l_step l') (l_world l') /\
    (ok = true ->
      (neq (l_derror l) zero = true /\ l_step l' = zero /\ l_world l' = l_world l) \/
      (nle (l_error l') (nadd (l_error l) (nmul (l_step l') (nmul (c1 o) (l_derror l)))) = true /\
       nle (nabs (l_derror l')) (nmul (nopp (c2 o)) (l_derror l)) = true)).
  Proof.
    intros l ok l' (C & Z) H. pose proof C as (E1 & E2 & E3 & E4 & E5).
    unfold lineSearchWolfe1, getError, getErrorDerivative in H. rewrite E1, E2 in H. cbn [bind] in H.
    destruct (nnan _ || nnan _) in H; [discriminate|]. cbv zeta in H. destruct (negb _) in H; [discriminate|].
    assert (CR : current errorOf gradOf slope (remember l)) by (repeat split; auto).
    assert (RR : reached moveBy (l_world l) (l_step (remember l)) (l_world (remember l))) by (cbn; rewrite Z; constructor).
    change (l_derror (remember l)) with (l_derror l) in H.
    destruct (neq (l_derror l) (lit 0)) eqn:D.
    - injection H as <- <-. split; auto.
    - unfold dcsrch_new in H. destruct (nlt _ _) in H; [|discriminate]. cbn [bind] in H.
      match type of H with (do r <- ?x; _) = _ => destruct x as [[[ok1 rest] l2]| |] eqn:L; cbn [bind] in H; try discriminate end.
      eapply (wolfe1_loop_inv (l_world l) (l_error l) (l_derror l)) in L; [|unfold inv1; cbn; repeat split; auto; congruence].
      destruct L as (L1 & L2 & L3).
      destruct (rest =? 0)%nat in H; injection H as <- <-; split; auto; split; auto; discriminate.
  Qed.

  (** ** zoom and wolfe2 *)
  Definition inv2 (w0 : W) (l : ST) : Prop := sound l /\ reached moveBy w0 (l_step l) (l_world l).

  Lemma zoom_inv : forall w0 n i lo hi elo ehi dlo sr er e0 d0 l ok l', inv2 w0 l ->
    zoom_loop errorOf gradOf slope moveBy o n i lo hi elo ehi dlo sr er e0 d0 l = Ok (ok, l') ->
    inv2 w0 l' /\ (ok = true -> l_eOut l' = false /\ l_dOut l' = false).
  Proof.
    intros w0. induction n as [|n IH]; intros i lo hi elo ehi dlo sr er e0 d0 l ok l' I H; cbn [zoom_loop] in H; cbv zeta in H.
    - injection H as <- <-. split; auto. discriminate.
    - set (sj := zoom_trial i lo hi elo ehi dlo sr er) in H.
      pose proof (upE_frame (app sj l)) as (U1 & U2 & U3 & U4 & _).
      assert (I1 : inv2 w0 (upE (app sj l))).
      { split; [apply upE_sound, app_sound, I|]. rewrite U1, U2, app_step. apply app_reached, I. }
      unfold getError in H at 1. rewrite U3 in H. cbn [bind] in H.
      destruct (_ || _) in H; [eapply IH; eauto|].
      pose proof (upD_frame (upE (app sj l))) as (V1 & V2 & V3 & V4 & _).
      assert (I2 : inv2 w0 (upD (upE (app sj l)))).
      { split; [apply upD_sound, I1|]. rewrite V1, V2. apply I1. }
      unfold getErrorDerivative in H at 1. rewrite V3 in H. cbn [bind] in H.
      destruct (nle _ _) in H; [injection H as <- <-; split; auto; intros _; split; congruence|].
      destruct (nle _ _) in H; eapply IH; eauto.
  Qed.
End P.
