(** * C30: when the line searches throw, and what they do at a stationary point *)
From Coq Require Import ZArith List Bool Lia.
From Verif Require Import Lib_Res Lib_Num LineSearch_Model LineSearch_Spec.

Section Outcome.
  Context {N W G : Type} {A : Num N}.
  Variables (errorOf : W -> N) (gradOf : W -> G) (slope : G -> N) (moveBy : W -> N -> W).
  Variable o : lsoptions N.

  (* the cached error and slope are up to date: LineSearch.hpp L388-395 *)
  Definition fresh (l : lstate N W G) : Prop := l_eOut l = false /\ l_dOut l = false.
  (* one of the cached numbers is NaN: LineSearch.cpp L656-657, L727-728 *)
  Definition not_numbers (l : lstate N W G) : bool := nnan (l_error l) || nnan (l_derror l).

  Lemma upE_fresh : forall l : lstate N W G, l_eOut (updateError errorOf l) = false.
  Proof. intros l. unfold updateError. destruct (l_eOut l) eqn:E; [reflexivity | exact E]. Qed.
  Lemma upD_fresh : forall l : lstate N W G, l_dOut (updateErrorDerivative gradOf slope l) = false.
  Proof. intros l. unfold updateErrorDerivative. destruct (l_dOut l) eqn:E; [reflexivity | exact E]. Qed.
  Lemma upD_e : forall l : lstate N W G, l_eOut (updateErrorDerivative gradOf slope l) = l_eOut l.
  Proof. intros l. unfold updateErrorDerivative. destruct (l_dOut l) eqn:E; reflexivity. Qed.

  Lemma zoom_ok : forall n i lo hi elo ehi dlo sr er e0 d0 (l : lstate N W G),
    exists b l', zoom_loop errorOf gradOf slope moveBy o n i lo hi elo ehi dlo sr er e0 d0 l = Ok (b, l').
  Proof.
    induction n as [|n IH]; intros; cbn [zoom_loop]; [eauto|]. cbv zeta.
    unfold getError at 1. rewrite upE_fresh. cbn [bind]. destruct (_ || _); [apply IH|].
    unfold getErrorDerivative at 1. rewrite upD_fresh. cbn [bind]. destruct (nle _ _); [eauto|]. destruct (nle _ _); apply IH.
  Qed.

  Lemma loop2_ok : forall n i mn mx emn emx dmn e0 d0 (l : lstate N W G),
    exists b l', wolfe2_loop errorOf gradOf slope moveBy o n i mn mx emn emx dmn e0 d0 l = Ok (b, l').
  Proof.
    induction n as [|n IH]; intros; cbn [wolfe2_loop]; [eauto|]. destruct (neq _ _); [eauto|].
    destruct (_ || _); [apply zoom_ok|]. cbv zeta. unfold getErrorDerivative at 1. rewrite upD_fresh. cbn [bind].
    destruct (nle _ _); [eauto|]. destruct (nle _ _); [apply zoom_ok|]. unfold getError at 1. rewrite upE_fresh. cbn [bind]. apply IH.
  Qed.

  Lemma loop1_ok : forall n s (l : lstate N W G), fresh l ->
    exists b k l', wolfe1_loop errorOf gradOf slope moveBy n s l = Ok (b, k, l') /\ fresh l'.
  Proof.
    induction n as [|n IH]; intros s l F; cbn [wolfe1_loop]; [exists false, O, l; auto|]. destruct F as [F1 F2].
    unfold getError, getErrorDerivative. rewrite F1, F2. cbn [bind]. destruct (updateStepLength _ _ _) as [st s'].
    destruct (s_status s'); [| exists true, n, l; repeat split; auto | exists false, n, l; repeat split; auto].
    apply IH. split; [rewrite upD_e; apply upE_fresh | apply upD_fresh].
  Qed.

  Lemma wolfe2_ok : forall l : lstate N W G, fresh l -> not_numbers l = false -> exists b l', lineSearchWolfe2 errorOf gradOf slope moveBy o l = Ok (b, l').
  Proof.
    intros l [F1 F2] V. unfold lineSearchWolfe2, getError at 1, getErrorDerivative. rewrite F1, F2. cbn [bind]. unfold not_numbers in V. rewrite V. cbv zeta.
    destruct (neq _ _); [eauto|]. destruct (neq _ _); [eauto|]. unfold getError. rewrite upE_fresh. cbn [bind]. apply loop2_ok.
  Qed.

  (* the first step length of lineSearchWolfe1 is inside of the limits: LineSearch.cpp L668-670 *)
  Definition step_allowed (l : lstate N W G) : bool := nle (minStep o) (first_step o (maxStep o) l) && nle (first_step o (maxStep o) l) (maxStep o).
  (* the slope is zero or negative: LineSearch.cpp L672-675, L243-246 *)
  Definition downhill (l : lstate N W G) : bool := neq (l_derror l) (nlit 0 1) || nlt (l_derror l) (nlit 0 1).

  Lemma wolfe1_cases : forall l : lstate N W G, fresh l ->
    if not_numbers l || negb (step_allowed l) || negb (downhill l) then lineSearchWolfe1 errorOf gradOf slope moveBy o l = Throw
    else exists b l', lineSearchWolfe1 errorOf gradOf slope moveBy o l = Ok (b, l') /\ fresh l'.
  Proof.
    intros l [F1 F2]. unfold lineSearchWolfe1, getError, getErrorDerivative. rewrite F1, F2. cbn [bind]. cbv zeta. fold (not_numbers l). fold (step_allowed l).
    destruct (not_numbers l); [reflexivity|]. cbn [orb]. destruct (step_allowed l); cbn [negb orb]; [|reflexivity].
    unfold downhill, remember, lit. cbn [l_derror]. destruct (neq (l_derror l) (nlit 0 1)); cbn [orb negb].
    - eexists _, _. split; [reflexivity|]. split; assumption.
    - unfold dcsrch_new, lit. destruct (nlt (l_derror l) (nlit 0 1)); cbn [negb bind]; [|reflexivity].
      match goal with |- context [wolfe1_loop _ _ _ _ ?n ?s ?m] => destruct (loop1_ok n s m) as (b & k & l' & E & F); [split; assumption|]; rewrite E end.
      cbn [bind]. destruct (Nat.eqb k 0); eexists _, _; split; try reflexivity; assumption.
  Qed.

  Lemma search_outcomes : forall l : lstate N W G,
    (l_eOut l = true \/ l_dOut l = true ->
       lineSearchWolfe1 errorOf gradOf slope moveBy o l = Throw /\ lineSearchWolfe2 errorOf gradOf slope moveBy o l = Throw /\
       lineSearchWolfe12 errorOf gradOf slope moveBy o l = Throw) /\
    (l_eOut l = false -> l_dOut l = false ->
       (nnan (l_error l) = true \/ nnan (l_derror l) = true -> lineSearchWolfe1 errorOf gradOf slope moveBy o l = Throw /\
          lineSearchWolfe2 errorOf gradOf slope moveBy o l = Throw /\ lineSearchWolfe12 errorOf gradOf slope moveBy o l = Throw) /\
       (nnan (l_error l) = false -> nnan (l_derror l) = false ->
          (exists b l', lineSearchWolfe2 errorOf gradOf slope moveBy o l = Ok (b, l')) /\
          (step_allowed l = true /\ downhill l = true -> (exists b l', lineSearchWolfe1 errorOf gradOf slope moveBy o l = Ok (b, l')) /\
             exists b l', lineSearchWolfe12 errorOf gradOf slope moveBy o l = Ok (b, l')) /\
          (step_allowed l = false \/ downhill l = false -> lineSearchWolfe1 errorOf gradOf slope moveBy o l = Throw /\
             lineSearchWolfe12 errorOf gradOf slope moveBy o l = Throw))).
  Proof.
    intros l. split.
    - intros S. assert (T1 : lineSearchWolfe1 errorOf gradOf slope moveBy o l = Throw).
      { unfold lineSearchWolfe1, getError, getErrorDerivative. destruct (l_eOut l); [reflexivity|]. destruct S as [S|S]; [discriminate|]. rewrite S. reflexivity. }
      repeat split; [exact T1 | | unfold lineSearchWolfe12; rewrite T1; reflexivity].
      unfold lineSearchWolfe2, getError, getErrorDerivative. destruct (l_eOut l); [reflexivity|]. destruct S as [S|S]; [discriminate|]. rewrite S. reflexivity.
    - intros F1 F2. assert (F : fresh l) by (split; assumption). pose proof (wolfe1_cases l F) as C. split.
      + intros V. assert (V' : not_numbers l = true) by (unfold not_numbers; destruct V as [V|V]; rewrite V; [reflexivity | apply orb_true_r]).
        rewrite V' in C. cbn [orb] in C. repeat split; [exact C | | unfold lineSearchWolfe12; rewrite C; reflexivity].
        unfold lineSearchWolfe2, getError at 1, getErrorDerivative. rewrite F1, F2. cbn [bind]. unfold not_numbers in V'. rewrite V'. reflexivity.
      + intros V1 V2. assert (V' : not_numbers l = false) by (unfold not_numbers; rewrite V1, V2; reflexivity). rewrite V' in C. cbn [orb] in C.
        split; [apply wolfe2_ok; assumption|]. split.
        * intros [S D]. rewrite S, D in C. cbn [negb orb] in C. destruct C as (b & l1 & E & G1 & G2). split; [eauto|].
          unfold lineSearchWolfe12. rewrite E. cbn [bind]. destruct b; [eauto|]. apply wolfe2_ok; [split; assumption | exact V'].
        * intros S. assert (negb (step_allowed l) || negb (downhill l) = true) as S' by (destruct S as [S|S]; rewrite S; [reflexivity | apply orb_true_r]).
          rewrite S' in C. split; [exact C | unfold lineSearchWolfe12; rewrite C; reflexivity].
  Qed.

  Lemma stationary : forall l : lstate N W G, l_eOut l = false -> l_dOut l = false -> nnan (l_error l) = false -> nnan (l_derror l) = false ->
    neq (l_derror l) (nlit 0 1) = true ->
    (exists l', lineSearchWolfe2 errorOf gradOf slope moveBy o l = Ok (true, l') /\ l_world l' = l_world l /\ l_step l' = l_step l /\ l_error l' = l_error l) /\
    (nle (minStep o) (initStep o) = true -> nle (initStep o) (maxStep o) = true ->
     exists l', lineSearchWolfe12 errorOf gradOf slope moveBy o l = Ok (true, l') /\ l_world l' = l_world l /\ l_step l' = l_step l /\ l_error l' = l_error l).
  Proof.
    intros l F1 F2 V1 V2 Z. split.
    - unfold lineSearchWolfe2, getError at 1, getErrorDerivative. rewrite F1, F2. cbn [bind]. rewrite V1, V2. cbn [orb]. cbv zeta. unfold remember, lit. cbn [l_derror]. rewrite Z.
      eexists. split; [reflexivity|]. repeat split.
    - intros B1 B2. unfold lineSearchWolfe12, lineSearchWolfe1, getError at 1, getErrorDerivative at 1. rewrite F1, F2. cbn [bind]. rewrite V1, V2. cbn [orb]. cbv zeta.
      unfold first_step, lit. rewrite Z. cbn [negb]. rewrite andb_false_r, B1, B2. cbn [andb negb]. unfold remember, lit. cbn [l_derror]. rewrite Z. cbn [bind].
      eexists. split; [reflexivity|]. repeat split.
  Qed.
End Outcome.
