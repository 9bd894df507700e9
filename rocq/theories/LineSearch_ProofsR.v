From Coq Require Import ZArith Reals Lra List Bool Lia.
From Verif Require Import Lib_Res Lib_Num LineSearch_Model LineSearch_Spec LineSearch_Proofs.
Import ListNotations.
Open Scope R_scope.

Lemma lit_R : forall z, @lit R R_num z = IZR z.
Proof. intros. unfold lit. cbn. field. Qed.
Lemma nlit0_R : @nlit R R_num 0 1 = 0. Proof. cbn. field. Qed.

Section PR.
  Context {W G : Type}.
  Variables (errorOf : W -> R) (gradOf : W -> G) (slope : G -> R) (moveBy : W -> R -> W).
  Hypothesis add : additive moveBy.
  Variable o : lsoptions R.
  Notation ST := (lstate R W G).
  Notation upE := (updateError errorOf (G := G)). Notation upD := (updateErrorDerivative gradOf slope).
  Notation app := (applyStateUpdate moveBy (G := G)).
  Notation cur := (current errorOf gradOf slope).

  Lemma reached_R : forall w0 s w, reached moveBy w0 s w -> w = moveBy w0 s.
  Proof.
    destruct add as [A0 AP]. induction 1.
    - rewrite nlit0_R. auto.
    - subst. rewrite AP. f_equal. cbn. lra.
    - apply Reqb_true in H0. cbn in H0. replace s' with s; auto. lra.
  Qed.

  Lemma wolfe1_R : forall l ok l', ready errorOf gradOf slope l -> lineSearchWolfe1 errorOf gradOf slope moveBy o l = Ok (ok, l') ->
    cur l' /\ l_world l' = moveBy (l_world l) (l_step l') /\
    (ok = true -> sufficient_decrease (c1 o) (l_error l) (l_derror l) (l_step l') (l_error l') /\
                  strong_curvature (c2 o) (l_derror l) (l_derror l')).
  Proof.
    intros l ok l' Rd H. destruct (wolfe1_any _ _ _ _ _ _ _ _ Rd H) as (C & Re & S).
    split; auto. apply reached_R in Re. split; auto. intros T. destruct (S T) as [(D & Z & Wq)|(D1 & D2)].
    - apply Reqb_true in D. rewrite nlit0_R in D, Z.
      destruct Rd as ((_ & _ & E3 & E4 & E5) & _). destruct C as (_ & _ & F3 & F4 & F5).
      unfold sufficient_decrease, strong_curvature. rewrite Z, F3, F5, F4, Wq, <- E4, <- E5, <- E3, D. split; [lra|]. rewrite Rabs_R0. lra.
    - apply Rleb_true in D1, D2. cbn in D1, D2. unfold sufficient_decrease, strong_curvature. split; lra.
  Qed.

  Lemma zoom_R : forall n i lo hi elo ehi dlo sr er e0 d0 B (l : ST) l', elo <= B ->
    zoom_loop errorOf gradOf slope moveBy o n i lo hi elo ehi dlo sr er e0 d0 l = Ok (true, l') ->
    l_error l' < B /\ strong_curvature (c2 o) d0 (l_derror l').
  Proof.
    induction n as [|n IH]; intros i lo hi elo ehi dlo sr er e0 d0 B l l' Le H; cbn [zoom_loop] in H; cbv zeta in H.
    - discriminate.
    - set (sj := zoom_trial i lo hi elo ehi dlo sr er) in H.
      unfold getError in H at 1. rewrite (proj1 (proj2 (proj2 (upE_frame errorOf (app sj l))))) in H. cbn [bind] in H.
      destruct (nlt _ _ || nle elo _) eqn:T in H; [eapply IH; [|exact H]; exact Le|].
      apply orb_false_iff in T. destruct T as [_ T]. apply Rleb_false in T.
      pose proof (upD_frame gradOf slope (upE (app sj l))) as (_ & _ & V3 & _ & V5 & _).
      unfold getErrorDerivative in H at 1. rewrite V3 in H. cbn [bind] in H.
      destruct (nle (nabs _) _) eqn:Cv in H.
      + assert (inj : forall a b : ST, Ok (true, a) = Ok (true, b) -> a = b) by congruence. apply inj in H. subst l'.
        apply Rleb_true in Cv. cbn in Cv. unfold strong_curvature. split; [rewrite V5; lra|lra].
      + destruct (nle _ _) in H; (eapply IH; [|exact H]; lra).
  Qed.

  Definition start2 (l : ST) : Prop :=
    l_eOut l = false /\ l_dOut l = false /\ l_error l = errorOf (l_world l) /\ l_step l = 0 /\
    l_derror l = slope (gradOf (l_world l)) /\ (l_derror l = 0 -> cur l).

  Lemma first_step_nonneg : forall cap l, 0 <= cap -> 0 < initStep o -> 0 <= first_step (W:=W) (G:=G) o cap l.
  Proof.
    intros cap l C I. unfold first_step. destruct (_ && _); [|lra]. cbv zeta. destruct (nlt _ _) eqn:L; [lra|].
    apply Rltb_false in L. rewrite lit_R in L. lra.
  Qed.

  Lemma wolfe2_loop_R : forall w0 n i mn mx emn emx dmn e0 d0 (l : ST) ok l', 0 <= c1 o -> d0 <= 0 -> 0 <= mx -> emn <= e0 ->
    inv2 errorOf gradOf slope moveBy w0 l -> l_eOut l = false -> l_error l = emx -> l_step l = mx ->
    wolfe2_loop errorOf gradOf slope moveBy o n i mn mx emn emx dmn e0 d0 l = Ok (ok, l') ->
    inv2 errorOf gradOf slope moveBy w0 l' /\
    (ok = true -> l_eOut l' = false /\ l_dOut l' = false /\ l_error l' <= e0 /\ strong_curvature (c2 o) d0 (l_derror l') /\
       (sufficient_decrease (c1 o) e0 d0 (l_step l') (l_error l') \/ l_error l' < e0)).
  Proof.
    intros w0. induction n as [|n IH]; intros i mn mx emn emx dmn e0 d0 l ok l' C1 D0 M E I O Ee Es H;
      cbn [wolfe2_loop] in H; cbv zeta in H.
    - injection H as <- <-. split; auto. discriminate.
    - destruct (neq mx _) in H; [injection H as <- <-; split; auto; discriminate|].
      assert (ZZ : forall lo hi elo ehi dlo (l1 : ST) okz lz, inv2 errorOf gradOf slope moveBy w0 l1 -> elo <= e0 ->
        zoom errorOf gradOf slope moveBy o lo hi elo ehi dlo e0 d0 l1 = Ok (okz, lz) ->
        inv2 errorOf gradOf slope moveBy w0 lz /\
        (okz = true -> l_eOut lz = false /\ l_dOut lz = false /\ l_error lz <= e0 /\ strong_curvature (c2 o) d0 (l_derror lz) /\
           (sufficient_decrease (c1 o) e0 d0 (l_step lz) (l_error lz) \/ l_error lz < e0))).
      { intros lo hi elo ehi dlo l1 okz lz I1 El Hz. unfold zoom in Hz.
        destruct (zoom_inv _ _ _ _ _ _ _ _ _ _ _ _ _ _ _ _ _ _ _ _ I1 Hz) as [J1 J2]. split; auto.
        intros ->. destruct (J2 eq_refl). destruct (zoom_R _ _ _ _ _ _ _ _ _ _ _ _ _ _ El Hz).
        repeat split; auto. lra. }
      destruct (nlt _ emx || _) eqn:T in H; [eapply ZZ; eauto|].
      apply orb_false_iff in T. destruct T as [T _]. apply Rltb_false in T. cbn in T.
      assert (Em : emx <= e0). { assert (0 <= c1 o * mx) by (apply Rmult_le_pos; auto). assert (0 <= (c1 o * mx) * (- d0)) by (apply Rmult_le_pos; lra). lra. }
      pose proof (upD_frame gradOf slope l) as (V1 & V2 & V3 & V4 & V5 & _).
      assert (I1 : inv2 errorOf gradOf slope moveBy w0 (upD l)).
      { destruct I as [Is Ir]. split; [apply upD_sound; auto|]. rewrite V1, V2. auto. }
      unfold getErrorDerivative in H at 1. rewrite V3 in H. cbn [bind] in H.
      destruct (nle (nabs _) _) eqn:Cv in H.
      + injection H as <- <-. split; auto. intros _. apply Rleb_true in Cv. cbn in Cv.
        rewrite V4, V3, V5, V1, Ee, Es. unfold strong_curvature, sufficient_decrease. repeat split; auto; lra.
      + destruct (nle _ _) in H; [eapply ZZ; eauto|].
        set (mx' := nmul (lit 2) mx) in H.
        assert (M' : 0 <= mx'). { unfold mx'. rewrite lit_R. cbn. lra. }
        pose proof (upE_frame errorOf (app mx' (upD l))) as (U1 & U2 & U3 & U4 & _).
        unfold getError in H at 1. rewrite U3 in H. cbn [bind] in H.
        eapply IH; [exact C1|exact D0|exact M'|exact Em| |exact U3|reflexivity| |exact H].
        * destruct I1 as [Is Ir]. split; [apply upE_sound, app_sound; auto|]. rewrite U1, U2, app_step. apply app_reached. auto.
        * rewrite U1. apply app_step.
  Qed.

  Lemma wolfe2_R : forall (l : ST) ok l', check_ls o = true -> l_derror l <= 0 -> start2 l ->
    lineSearchWolfe2 errorOf gradOf slope moveBy o l = Ok (ok, l') ->
    (l_world l' = moveBy (l_world l) (l_step l') /\ (l_eOut l' = false -> l_error l' = errorOf (l_world l'))) /\
    (ok = true -> cur l' /\ l_error l' <= l_error l /\ strong_curvature (c2 o) (l_derror l) (l_derror l') /\
       (sufficient_decrease (c1 o) (l_error l) (l_derror l) (l_step l') (l_error l') \/ l_error l' < l_error l)).
  Proof.
    intros l ok l' Ck D (E1 & E2 & E3 & E4 & E5 & E6) H.
    unfold check_ls in Ck. rewrite !andb_true_iff in Ck. destruct Ck as ((((((((K1 & _) & _) & _) & _) & K6) & _) & _) & _).
    apply Rleb_true in K1. apply Rltb_true in K6. rewrite lit_R in K1, K6.
    assert (A0 : forall w, moveBy w 0 = w) by apply add.
    unfold lineSearchWolfe2, getError, getErrorDerivative in H. rewrite E1, E2 in H. cbn [bind] in H.
    destruct (nnan _ || nnan _) in H; [discriminate|]. cbv zeta in H. change (l_derror (remember l)) with (l_derror l) in H.
    destruct (neq (l_derror l) _) eqn:Dz in H.
    { injection H as <- <-. apply Reqb_true in Dz. rewrite lit_R in Dz. cbn. rewrite E4, A0. split; auto. intros _.
      split; [|split; [|split]]; [|lra| |].
      - destruct (E6 Dz) as (F1 & F2 & F3 & F4 & F5). repeat split; auto.
      - unfold strong_curvature. rewrite Dz, Rabs_R0. lra.
      - left. unfold sufficient_decrease. lra. }
    apply Reqb_false in Dz. rewrite lit_R in Dz.
    set (mx := first_step o (initStep o) l) in H.
    destruct (neq mx _) eqn:Mz in H.
    { injection H as <- <-. cbn. rewrite E4, A0. split; auto. discriminate. }
    apply Reqb_false in Mz. rewrite lit_R in Mz.
    pose proof (upE_frame errorOf (app mx (remember l))) as (U1 & U2 & U3 & U4 & _).
    rewrite U3 in H. cbn [bind] in H.
    assert (AP : app mx (remember l) = mkLS (l_grad l) mx (l_error l) (l_error l) (l_derror l) true true (moveBy (l_world l) (mx - l_step l))).
    { unfold applyStateUpdate. change (neq (nsub mx (l_step (remember l))) (lit 0)) with (Reqb (mx - l_step l) (@lit R R_num 0)).
      destruct (Reqb _ _) eqn:Q; [apply Reqb_true in Q; rewrite lit_R in Q; lra|]. reflexivity. }
    eapply (wolfe2_loop_R (l_world l)) in H.
    - destruct H as [[Sd Rd] S]. apply reached_R in Rd. split; [split; auto; apply Sd|]. intros ->.
      destruct (S eq_refl) as (S1 & S2 & S3 & S4 & S5). split; [apply sound_current; auto|]. auto.
    - exact K1.
    - exact D.
    - apply first_step_nonneg; lra.
    - cbn. lra.
    - split.
      + apply upE_sound. rewrite AP. split; discriminate.
      + rewrite U1, U2, AP. cbn [l_step l_world]. refine (reach_move moveBy _ _ _ mx _). rewrite E4. replace 0 with (@nlit R R_num 0 1) at 1 by apply nlit0_R. constructor.
    - exact U3.
    - reflexivity.
    - rewrite U1, AP. reflexivity.
  Qed.

  Lemma wolfe12_R : forall (l : ST) ok l', check_ls o = true -> l_derror l <= 0 -> ready errorOf gradOf slope l ->
    lineSearchWolfe12 errorOf gradOf slope moveBy o l = Ok (ok, l') ->
    (l_world l' = moveBy (l_world l) (l_step l') /\ (l_eOut l' = false -> l_error l' = errorOf (l_world l'))) /\
    (ok = true -> cur l' /\ strong_curvature (c2 o) (l_derror l) (l_derror l') /\
       (sufficient_decrease (c1 o) (l_error l) (l_derror l) (l_step l') (l_error l') \/ l_error l' < l_error l)).
  Proof.
    intros l ok l' Ck D Rd H. unfold lineSearchWolfe12 in H.
    destruct (lineSearchWolfe1 _ _ _ _ _ _) as [[ok1 l1]| |] eqn:L1; cbn [bind] in H; try discriminate.
    destruct (wolfe1_R _ _ _ Rd L1) as (C & Wq & S).
    destruct ok1.
    - injection H as <- <-. destruct (S eq_refl) as (S1 & S2). split; [split; [auto|intros _; apply C]|]. intros _. auto.
    - pose proof C as (C1 & C2 & _). destruct Rd as ((R1 & R2 & R3 & R4 & R5) & R6).
      assert (Dn : l_derror l <> 0).
      { intros Z. unfold lineSearchWolfe1, getError, getErrorDerivative in L1. rewrite R1, R2 in L1. cbn [bind] in L1.
        destruct (nnan _ || nnan _) in L1; [discriminate|]. cbv zeta in L1. destruct (negb _) in L1; [discriminate|].
        change (l_derror (remember l)) with (l_derror l) in L1.
        assert (Q : neq (l_derror l) (lit 0) = true) by (apply Reqb_true; rewrite lit_R; auto). rewrite Q in L1. discriminate. }
      apply wolfe2_R in H; auto.
      + cbn in H. destruct H as [H1 H2]. split; auto. intros T. destruct (H2 T) as (Q1 & Q2 & Q3 & Q4). auto.
      + unfold start2. cbn [l_eOut l_dOut l_error l_world l_step l_derror]. rewrite C1, C2, lit_R. repeat split; auto; congruence.
  Qed.

  (* After an unsuccessful search the caller can go back. *)
  Lemma back_to_start : forall (l : ST) w0, l_world l = moveBy w0 (l_step l) -> l_world (app 0 l) = w0.
  Proof.
    intros l w0 E. destruct add as [A0 AP]. unfold applyStateUpdate.
    change (neq (nsub 0 (l_step l)) (lit 0)) with (Reqb (0 - l_step l) (@lit R R_num 0)).
    destruct (Reqb _ _) eqn:Q; cbn.
    - apply Reqb_true in Q. rewrite lit_R in Q. rewrite E. replace (l_step l) with 0 by lra. auto.
    - rewrite E, AP. replace (l_step l + (0 - l_step l)) with 0 by lra. auto.
  Qed.
End PR.
