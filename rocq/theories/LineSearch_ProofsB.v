From Coq Require Import ZArith Reals Lra List Bool Lia.
From Verif Require Import Lib_Res Lib_Num Lib_Float LineSearch_Model LineSearch_Spec LineSearch_Proofs.
Import ListNotations.

Section Bounds.
  Context {N : Type} {A : Num N}.
  Variable okstep : N -> Prop.
  Notation zero := (nlit 0 1).

  Lemma dcstep_ends : forall v fp dp a b, okstep (stx v) -> okstep (sty v) -> okstep (stp v) ->
    okstep (stx (dcstep v fp dp a b)) /\ okstep (sty (dcstep v fp dp a b)).
  Proof.
    intros. unfold dcstep. destruct (dcstep_new v fp dp a b). destruct (nlt (fx v) fp); [cbn; auto|].
    destruct (nlt _ _); cbn; auto.
  Qed.

  Lemma move_ends : forall s stage e d, okstep (stx (s_dc s)) -> okstep (sty (s_dc s)) -> okstep (stp (s_dc s)) ->
    okstep (stx (dcsrch_move s stage e d)) /\ okstep (sty (dcsrch_move s stage e d)).
  Proof.
    intros s stage e d H1 H2 H3. unfold dcsrch_move. destruct (_ && _ && _); cbv zeta; cbn [stx sty]; apply dcstep_ends; auto.
  Qed.

  Definition okdc (v : dc N) := okstep (stx v) /\ okstep (sty v) /\ okstep (stp v).

  Lemma bound_ends : forall s stage v, okstep (stx v) -> okstep (sty v) -> (forall x, okstep (smin (smax x (s_min s)) (s_max s))) ->
    okdc (s_dc (dcsrch_bound s stage v)).
  Proof.
    intros s stage v H1 H2 H3. unfold dcsrch_bound, okdc. destruct (brackt v); cbv zeta; cbn;
    match goal with |- context [if ?c then stx v else _] => destruct c | _ => idtac end; cbn; auto.
  Qed.

  Lemma update_ends : forall s e d, okdc (s_dc s) -> (forall x, okstep (smin (smax x (s_min s)) (s_max s))) ->
    okdc (s_dc (snd (updateStepLength s e d))).
  Proof.
    intros s e d (H1 & H2 & H3) C. unfold updateStepLength. destruct (s_stage s); [cbn; repeat split; auto|].
    destruct (dcsrch_test s e d) as [stage []]; cbv zeta; cbn [snd]; [|repeat split; auto|repeat split; auto].
    match goal with |- okdc (s_dc (dcsrch_bound ?s1 ?st (dcsrch_move ?s1 ?st e d))) =>
      destruct (move_ends s1 st e d) as [M1 M2]; auto; apply bound_ends; auto end.
  Qed.

  Lemma running_ends : forall s0 e0 h s, okdc (s_dc s0) -> (forall x, okstep (smin (smax x (s_min s0)) (s_max s0))) ->
    running s0 e0 h s -> okdc (s_dc s).
  Proof.
    intros s0 e0 h s I C R. assert (okdc (s_dc s) /\ s_min s = s_min s0 /\ s_max s = s_max s0); [|tauto].
    induction R as [d|h s e d s' R IH Ru E].
    - split; [apply update_ends; auto|]. destruct (updateStepLength s0 e0 d) as [st s'] eqn:U. apply update_const in U. cbn. tauto.
    - destruct IH as (I1 & I2 & I3). subst s'. split; [apply update_ends; auto; rewrite I2, I3; auto|].
      destruct (updateStepLength s e d) as [st s'] eqn:U. apply update_const in U. cbn.
      destruct U as (_ & _ & _ & U1 & U2 & _). rewrite U1, U2. auto.
  Qed.

  (* every trial of the search is a trial of a run of Dcsrch *)
  Section L.
    Context {W G : Type}.
    Variables (errorOf : W -> N) (gradOf : W -> G) (slope : G -> N) (moveBy : W -> N -> W).
    Variable o : lsoptions N.

    Lemma wolfe1_loop_ends : forall n s l ok rest l', okdc (s_dc s) -> (forall x, okstep (smin (smax x (s_min s)) (s_max s))) ->
      okstep (l_step l) -> wolfe1_loop errorOf gradOf slope moveBy n s l = Ok (ok, rest, l') -> okstep (l_step l').
    Proof.
      induction n as [|n IH]; intros s l ok rest l' I C L H; cbn in H.
      - injection H as _ _ <-. auto.
      - destruct (getError l) as [e| |]; cbn [bind] in H; try discriminate.
        destruct (getErrorDerivative l) as [d| |]; cbn [bind] in H; try discriminate.
        pose proof (update_ends s e d I C) as I'. destruct (updateStepLength s e d) as [st s'] eqn:U. cbn [snd] in I'.
        apply update_const in U. destruct U as (_ & _ & _ & U1 & U2 & _ & U3 & _).
        destruct (s_status s').
        + eapply IH; [exact I'|rewrite U1, U2; exact C| |exact H].
          rewrite (proj1 (upD_frame gradOf slope _)), (proj1 (upE_frame errorOf _)), app_step, <- U3. apply I'.
        + injection H as _ _ <-. auto.
        + injection H as _ _ <-. auto.
    Qed.

    Lemma wolfe1_ends : forall l ok l', okstep zero -> (forall x, okstep (smin (smax x (minStep o)) (maxStep o))) ->
      (forall x, nle (minStep o) x = true -> nle x (maxStep o) = true -> okstep x) ->
      l_step l = zero -> lineSearchWolfe1 errorOf gradOf slope moveBy o l = Ok (ok, l') -> okstep (l_step l').
    Proof.
      intros l ok l' Z C B L H. unfold lineSearchWolfe1 in H.
      destruct (getError l) as [e| |]; cbn [bind] in H; try discriminate.
      destruct (getErrorDerivative l) as [d| |]; cbn [bind] in H; try discriminate.
      destruct (nnan _ || nnan _) in H; [discriminate|]. cbv zeta in H. destruct (negb _) eqn:Bd in H; [discriminate|].
      apply negb_false_iff, andb_true_iff in Bd. destruct Bd as [B1 B2].
      destruct (neq _ _) in H; [injection H as _ <-; cbn; rewrite L; auto|].
      unfold dcsrch_new in H. destruct (nlt _ _) in H; [|discriminate]. cbn [bind] in H.
      match type of H with (do r <- ?x; _) = _ => destruct x as [[[ok1 rest] l2]| |] eqn:Lp; cbn [bind] in H; try discriminate end.
      assert (okstep (l_step l2)).
      { eapply wolfe1_loop_ends; [| | |exact Lp]; cbn; auto; [|rewrite L; auto].
        repeat split; auto. }
      destruct (rest =? 0)%nat in H; injection H as _ <-; auto.
    Qed.
  End L.
End Bounds.

Opaque fsub fadd fmul fdiv fz fl flt fle fabs fopp feq fsqrt.

(* between the bounds, or the starting point, or not a number *)
Definition step_b64 (mn mx x : b64) : Prop := (fle mn x = true /\ fle x mx = true) \/ x = fz 0 \/ isnan x = true.
Lemma clamp_b64 : forall mn mx x, fle mn mx = true -> step_b64 mn mx (smin (smax x mn) mx).
Proof.
  intros mn mx x M. unfold step_b64, smin, smax; cbn [nlt b64_num].
  pose proof (fle_nan_l _ _ M) as Nn. pose proof (fle_nan_r _ _ M) as Nx.
  destruct (flt x mn) eqn:X1.
  - destruct (flt mx mn); left; split; auto using fle_refl.
  - destruct (flt mx x) eqn:X2; [left; split; auto using fle_refl|].
    destruct (isnan x) eqn:Xn; [right; right; reflexivity|]. left. split; apply flt_le_false; auto.
Qed.

Definition step_R (mn mx x : R) : Prop := (mn <= x <= mx)%R \/ x = 0%R.
Lemma clamp_R : forall mn mx x, (mn <= mx)%R -> step_R mn mx (smin (smax x mn) mx).
Proof.
  intros mn mx x M. unfold step_R, smin, smax; cbn [nlt R_num].
  destruct (Rltb x mn) eqn:X1.
  - destruct (Rltb mx mn) eqn:X2; left; [apply Rltb_true in X2|apply Rltb_false in X2]; lra.
  - apply Rltb_false in X1. destruct (Rltb mx x) eqn:X2; left; [apply Rltb_true in X2|apply Rltb_false in X2]; lra.
Qed.

(** ** the best point *)
Lemma flt_fle_contra : forall x y, flt x y = true -> fle y x = true -> False.
Proof.
  intros x y L E. pose proof (fle_nan_l _ _ E) as Ny. pose proof (fle_nan_r _ _ E) as Nx.
  destruct (finite_or x Nx) as [Fx|[->| ->]]; destruct (finite_or y Ny) as [Fy|[->| ->]].
  - apply (flt_finite x y Fx Fy) in L. apply (fle_finite y x Fy Fx) in E. lra.
  - apply fle_inf_inv in E. subst. discriminate.
  - destruct x; discriminate.
  - destruct y; discriminate.
  - discriminate.
  - discriminate.
  - apply fle_ninf_inv in E. subst. discriminate.
  - discriminate.
  - discriminate.
Qed.

Definition best (h : list (b64 * b64)) (v : dc b64) : Prop :=
  In (stx v, fx v) h /\ In (sty v, fy v) h /\ forall s e, In (s, e) h -> fle (fx v) e = true.

Definition fair (finit gtest : b64) (p : b64 * b64) : Prop :=
  isnan (snd p) = false /\ (fle (snd p) (fadd finit (fmul (fst p) gtest)) = true \/ flt finit (snd p) = true).

Lemma dcstep_best : forall h v fp dp a b, best h v -> isnan fp = false -> best ((stp v, fp) :: h) (dcstep v fp dp a b).
Proof.
  intros h v fp dp a b (B1 & B2 & B3) Nf. unfold dcstep. destruct (dcstep_new v fp dp a b) as [s bb]. cbn [nlt b64_num].
  pose proof (fle_nan_l _ _ (B3 _ _ B1)) as Nx.
  destruct (flt (fx v) fp) eqn:L.
  - unfold best; cbn. repeat split; auto. intros s' e' [E|E]; [|eauto]. injection E as _ <-. apply flt_le; auto.
  - assert (Le : fle fp (fx v) = true) by (apply flt_le_false; auto).
    assert (Q : forall s' e', (stp v, fp) = (s', e') \/ In (s', e') h -> fle fp e' = true).
    { intros s' e' [E|E]; [injection E as _ <-; apply fle_refl; auto|]. eapply fle_trans; eauto. }
    match goal with |- context [if ?c then _ else _] => destruct c end; unfold best; cbn; repeat split; auto.
Qed.

Lemma bound_best : forall h s stage v, best h v -> best h (s_dc (dcsrch_bound s stage v)).
Proof. intros h s stage v B. unfold dcsrch_bound. destruct (brackt v); exact B. Qed.

Lemma running_best : forall e0 s0 h s, isnan e0 = false -> s_finit s0 = e0 -> s_status s0 = RUNNING -> s_stage s0 = O ->
  stx (s_dc s0) = fz 0 -> fx (s_dc s0) = e0 -> sty (s_dc s0) = fz 0 -> fy (s_dc s0) = e0 ->
  running s0 e0 h s -> (forall p, In p (removelast h) -> fair e0 (s_gtest s0) p) -> s_status s = RUNNING -> best h (s_dc s).
Proof.
  intros e0 s0 h s Ne Fi Ru0 St0 X1 X2 Y1 Y2 R. 
  assert (K : s_stage s <> O /\ s_finit s = e0 /\ s_gtest s = s_gtest s0 /\ h <> [] /\ In (fz 0, e0) h).
  { induction R as [d|h s e d s' R IH Ru E].
    - destruct (updateStepLength s0 e0 d) as [st s'] eqn:U. apply update_const in U. cbn. intuition congruence.
    - subst s'. destruct (updateStepLength s e d) as [st s'] eqn:U. apply update_const in U. cbn. intuition congruence. }
  induction R as [d|h s e d s' R IH Ru E]; intros F Rs.
  - clear F. unfold updateStepLength. rewrite St0. cbn. unfold best. rewrite X1, X2, Y1, Y2.
    change (@nlit b64 b64_num 0 1) with (fz 0). cbn. repeat split; auto.
    intros s e [E|[]]. injection E as _ <-. apply fle_refl; auto.
  - assert (K' : s_stage s <> O /\ s_finit s = e0 /\ s_gtest s = s_gtest s0 /\ h <> [] /\ In (fz 0, e0) h).
    { clear IH F Rs K E. induction R as [d0|h s e1 d0 s2 R IH Ru1 E].
      - destruct (updateStepLength s0 e0 d0) as [st s2] eqn:U. apply update_const in U. cbn. intuition congruence.
      - subst s2. destruct (updateStepLength s e1 d0) as [st s2] eqn:U. apply update_const in U. cbn. intuition congruence. }
    destruct K' as (K1 & K2 & K3 & K4 & K5).
    assert (RL : removelast ((stp (s_dc s), e) :: h) = (stp (s_dc s), e) :: removelast h) by (destruct h; [congruence|reflexivity]).
    rewrite RL in F.
    assert (B : best h (s_dc s)) by (apply IH; auto; intros p Hp; apply F; right; auto).
    destruct (F _ (or_introl eq_refl)) as [Fn Fe]. cbn [fst snd] in Fn, Fe.
    subst s'. unfold updateStepLength in Rs |- *. destruct (s_stage s) as [|n] eqn:Es; [congruence|].
    destruct (dcsrch_test s e d) as [stage []]; cbv zeta in Rs |- *; cbn [snd] in Rs |- *; try (cbn in Rs; discriminate).
    apply bound_best. unfold dcsrch_move. cbn [s_dc s_finit s_gtest s_stmin s_stmax nle nlt nadd nmul b64_num].
    destruct ((stage =? 1)%nat && fle e (fx (s_dc s)) && flt (fadd (s_finit s) (fmul (stp (s_dc s)) (s_gtest s))) e) eqn:M.
    + exfalso. rewrite !andb_true_iff in M. destruct M as ((_ & M1) & M2). rewrite K2, K3 in M2.
      destruct Fe as [Fe|Fe]; [eapply flt_fle_contra; eauto|].
      destruct B as (_ & _ & B3). eapply flt_fle_contra; [exact Fe|]. eapply fle_trans; [exact M1|]. apply (B3 _ _ K5).
    + apply dcstep_best; auto.
Qed.

Lemma best_end : forall (init e0 d0 mn mx ftol xtol gtol : b64) (s0 s : dcsrch b64) (h : list (b64 * b64)),
  isnan e0 = false ->
  dcsrch_new init e0 d0 mn mx ftol xtol gtol = Ok s0 -> running s0 e0 h s -> s_status s = RUNNING ->
  (forall st e, In (st, e) (removelast h) -> isnan e = false /\ (fle e (fadd e0 (fmul st (fmul ftol d0))) = true \/ flt e0 e = true)) ->
  In (stx (s_dc s), fx (s_dc s)) h /\ In (sty (s_dc s), fy (s_dc s)) h /\
  (forall st e, In (st, e) h -> fle (fx (s_dc s)) e = true).
Proof.
  intros init e0 d0 mn mx ftol xtol gtol s0 s h Ne E R Rs F. unfold dcsrch_new in E. destruct (nlt _ _) in E; [|discriminate].
  assert (inj : forall a b : dcsrch b64, Ok a = Ok b -> a = b) by congruence. apply inj in E. subst s0.
  eapply (running_best e0) in R; auto.
  intros [st e] Hp. apply F in Hp. exact Hp.
Qed.

Lemma trials_R : forall (init e0 d0 mn mx ftol xtol gtol : R) (s0 s : dcsrch R) (h : list (R * R)),
  (mn <= init <= mx)%R ->
  dcsrch_new init e0 d0 mn mx ftol xtol gtol = Ok s0 -> running s0 e0 h s ->
  (mn <= stp (s_dc s) <= mx)%R \/ stp (s_dc s) = 0%R.
Proof.
  intros init e0 d0 mn mx ftol xtol gtol s0 s h B E Ru. unfold dcsrch_new in E. destruct (nlt _ _) in E; [|discriminate].
  assert (inj : forall a b : dcsrch R, Ok a = Ok b -> a = b) by congruence. apply inj in E. subst s0.
  eapply (running_ends (step_R mn mx)) in Ru; [apply Ru| |].
  - unfold okdc, step_R; cbn. repeat split; try (right; unfold lit; cbn; field). left; lra.
  - intros x. exact (clamp_R mn mx x (Rle_trans _ _ _ (proj1 B) (proj2 B))).
Qed.

(* error 0 and slope -1 at the start, error 5 and slope 4 at the first trial step 2 *)
Lemma trials_case : (1 <= 2 <= 50)%R /\ exists s0 s, dcsrch_new 2%R 0%R (-1)%R 1%R 50%R (1/10000)%R (1/1000000)%R (9/10)%R = Ok s0 /\
  running s0 0%R [(2%R, 5%R); (nlit 0 1, 0%R)] s.
Proof.
  split; [lra|]. unfold dcsrch_new. change (nlt (-1)%R (lit 0)) with (Rltb (-1) (@lit R R_num 0)).
  rewrite (proj2 (Rltb_true (-1) (@lit R R_num 0))) by (unfold lit; cbn; lra). eexists. eexists. split; [reflexivity|].
  refine (run_step _ _ _ _ 5%R 4%R _ (run_start _ _ (-1)%R) _ eq_refl). reflexivity.
Qed.
