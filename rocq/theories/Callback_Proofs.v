From Coq Require Import ZArith Reals Lra Lia List Bool.
From Flocq Require Import BinarySingleNaN.
From Verif Require Import Lib_Res Lib_Float Optimizer2_Model Callback_Model Callback_Spec.
Import ListNotations.

Lemma add_spec : forall es c r e, add es c r e = r e ++ repeat c (count_occ Nat.eq_dec es e).
Proof.
  induction es as [|x es IH]; intros c r e; cbn; [rewrite app_nil_r; auto|]. rewrite IH. unfold upd.
  destruct (Nat.eq_dec x e) as [->|N].
  - rewrite Nat.eqb_refl. rewrite <- app_assoc. cbn. auto.
  - destruct (Nat.eqb_spec e x); [congruence|auto].
Qed.
Lemma filter_idem : forall A (f : A -> bool) l, filter f (filter f l) = filter f l.
Proof. induction l; cbn; auto. destruct (f a) eqn:E; cbn; rewrite ?E; congruence. Qed.
Lemma remove_spec : forall es c r e, remove es c r e = if existsb (Nat.eqb e) es then filter (fun x => negb (Nat.eqb x c)) (r e) else r e.
Proof.
  induction es as [|x es IH]; intros c r e; cbn; auto. rewrite IH. unfold upd.
  destruct (Nat.eqb_spec e x); cbn; auto. subst. destruct (existsb (Nat.eqb x) es); auto. apply filter_idem.
Qed.

Lemma filter_all : forall A (f : A -> bool) l, (forall x, In x l -> f x = true) -> filter f l = l.
Proof. induction l; cbn; intros; auto. rewrite H by auto. f_equal; auto. Qed.
Lemma filter_none : forall A (f : A -> bool) l, (forall x, In x l -> f x = false) -> filter f l = [].
Proof. induction l; cbn; intros; auto. rewrite H by auto. auto. Qed.
Lemma filter_ext2 : forall A (f g h : A -> bool) l, (forall x, g x = f x && h x) -> filter g l = filter h (filter f l).
Proof.
  induction l; cbn; intros; auto. rewrite H. destruct (f a); cbn; auto. destruct (h a); cbn; auto. f_equal; auto.
Qed.

Lemma history : forall h r e, fold_left perform h r e =
  filter (fun c => negb (existsb (kills e c) h)) (r e) ++ registered e h.
Proof.
  induction h as [|o h IH]; intros r e; cbn [fold_left].
  - cbn. rewrite app_nil_r. symmetry. apply filter_all. auto.
  - rewrite IH. destruct o as [es c|es c|e'|]; cbn [perform registered existsb kills].
    + rewrite add_spec. cbn [orb]. rewrite filter_app, <- app_assoc. f_equal. f_equal.
      destruct (existsb (kills e c) h) eqn:E.
      * apply filter_none. intros x Hx. apply repeat_spec in Hx. subst x. rewrite E. reflexivity.
      * apply filter_all. intros x Hx. apply repeat_spec in Hx. subst x. rewrite E. reflexivity.
    + f_equal. rewrite remove_spec. destruct (existsb (Nat.eqb e) es) eqn:E; cbn [andb].
      * symmetry. apply filter_ext2. intros x. rewrite negb_orb. auto.
      * apply filter_ext. intros. auto.
    + f_equal. unfold clear, upd. destruct (Nat.eqb e e'); cbn [orb negb]; [symmetry; apply filter_none; auto|auto].
    + f_equal. unfold clear_all, empty_registry. cbn [orb negb]. symmetry. cbn [filter]. apply filter_none. auto.
Qed.
Lemma history_empty : forall h e, fold_left perform h empty_registry e = registered e h.
Proof. intros. rewrite history. reflexivity. Qed.

Lemma issue_spec : forall W (impl : nat -> functor_ W) e l w v w' cs, issue_list impl e l w = (v, w', cs) ->
  run impl e cs w v w' /\ exists rest, l = cs ++ rest /\ (rest <> [] -> v <> CONTINUE) /\ (cs = [] -> l = []).
Proof.
  induction l as [|c l IH]; intros w v w' cs H; cbn in H.
  - injection H as <- <- <-. split; [constructor|]. exists []. repeat split; auto; congruence.
  - destruct (call (impl c) e w) as [v1 w1] eqn:C. destruct v1.
    + destruct (issue_list impl e l w1) as [[v2 w2] cs2] eqn:I. injection H as <- <- <-.
      destruct (IH _ _ _ _ I) as (A & rest & B1 & B2 & B3). split; [eapply run_more; eauto|]. exists rest. subst. repeat split; auto. discriminate.
    + injection H as <- <- <-. split; [apply run_last; auto|]. exists l. repeat split; auto; discriminate.
    + injection H as <- <- <-. split; [apply run_last; auto|]. exists l. repeat split; auto; discriminate.
Qed.

Lemma issue_prefix : forall W (impl : nat -> functor_ W) h e w v w' cs,
  issueCallback impl (fold_left perform h empty_registry) e w = (v, w', cs) ->
  run impl e cs w v w' /\ exists rest, registered e h = cs ++ rest /\ (rest <> [] -> v <> CONTINUE).
Proof.
  intros W impl h e w v w' cs H. unfold issueCallback in H. rewrite history_empty in H. apply issue_spec in H.
  destruct H as (A & rest & B & C & _). eauto.
Qed.

Lemma not_invoked : forall W (impl : nat -> functor_ W) h1 h2 es c e w v w' cs, In e es ->
  (forall o, In o h2 -> match o with RAdd es' c' => c' = c -> ~ In e es' | _ => True end) ->
  issueCallback impl (fold_left perform (h1 ++ RRemove es c :: h2) empty_registry) e w = (v, w', cs) -> ~ In c cs.
Proof.
  intros W impl h1 h2 es c e w v w' cs He Hn H Hc. apply issue_prefix in H. destruct H as (_ & rest & R & _).
  assert (In c (registered e (h1 ++ RRemove es c :: h2))) as I by (rewrite R; apply in_or_app; auto). clear - I He Hn.
  assert (forall h, (forall o, In o h -> match o with RAdd es' c' => c' = c -> ~ In e es' | _ => True end) -> ~ In c (registered e h)) as N.
  { induction h as [|o h IH]; intros Ho I'; [auto|]. destruct o as [es' c'|es' c'|e'|]; cbn [registered] in I'; try (apply IH; auto; intros o' Ho'; apply Ho; cbn; auto; fail).
    apply in_app_or in I'. destruct I' as [I'|I']; [|apply IH; auto; intros o' Ho'; apply Ho; cbn; auto].
    destruct (existsb (kills e c') h); [auto|]. pose proof I' as I2. apply repeat_spec in I2. specialize (Ho (RAdd es' c') (or_introl eq_refl)). cbn in Ho. apply Ho; auto.
    apply (count_occ_In Nat.eq_dec). destruct (count_occ Nat.eq_dec es' e); [cbn in I'; contradiction|lia]. }
  induction h1 as [|o h IH].
  - cbn in I. apply (N h2); auto.
  - cbn [app registered] in I. destruct o as [es' c'|es' c'|e'|]; auto.
    apply in_app_or in I. destruct I as [I|I]; auto.
    destruct (existsb (kills e c') (h ++ RRemove es c :: h2)) eqn:E; [auto|]. apply repeat_spec in I. subst c'.
    assert (existsb (kills e c) (h ++ RRemove es c :: h2) = true) as T; [|congruence].
    apply existsb_exists. exists (RRemove es c). split; [apply in_or_app; right; left; auto|]. cbn.
    rewrite Nat.eqb_refl, andb_true_r. apply existsb_exists. exists e. split; auto. apply Nat.eqb_refl.
Qed.

(** the verdict of a callback never influences Optimizer2 *)
Lemma verdict_ignored : forall W D (E : @env W D) index (g : nat -> W -> W) (verdict verdict' : nat -> W -> proceed) r,
  (forall e, length (r e) <= 1)%nat -> forall opt s d w,
  optimize (with_callbacks E (fun _ => FVerdict (fun e w => (verdict e w, g e w))) r index) opt s d w =
  optimize (with_callbacks E (fun _ => FVerdict (fun e w => (verdict' e w, g e w))) r index) opt s d w.
Proof.
  intros W D E index g v v' r Hr opt s d w.
  set (E1 := with_callbacks E (fun _ => FVerdict (fun e w => (v e w, g e w))) r index).
  set (E2 := with_callbacks E (fun _ => FVerdict (fun e w => (v' e w, g e w))) r index).
  assert (forall ev x, eCallback E1 ev x = eCallback E2 ev x) as C.
  { intros ev x. cbn. unfold issueCallback. specialize (Hr (index ev)). destruct (r (index ev)) as [|c [|]]; cbn in *; [auto| |lia].
    destruct (v (index ev) x), (v' (index ev) x); auto. }
  assert (forall l, apply_step E1 l = apply_step E2 l) as Ap.
  { intros l. unfold apply_step. change (eApply E2) with (eApply E1). destruct (eApply E1 (world l) (dx l)). rewrite C. reflexivity. }
  assert (forall l, evaluateError E1 l = evaluateError E2 l) as Ev by reflexivity.
  assert (forall l, judge_step E1 l = judge_step E2 l) as Ju by reflexivity.
  assert (forall l, iteration E1 l = iteration E2 l) as It.
  { intros l. unfold iteration. change (eSolve E2) with (eSolve E1). destruct (eSolve E1 (world l) (error (st l)) (prevFailed l) (dx l)) as [[ok d'] w'].
    change (eSize E2) with (eSize E1). destruct (eSize E1 w' d'); auto. rewrite C. rewrite Ap, Ev, Ju. reflexivity. }
  assert (forall f l, loop E1 opt f l = loop E2 opt f l) as Lo.
  { induction f; intros l; cbn [loop]; auto. destruct (continue_ opt l); auto. rewrite It. destruct (iteration E2 l); auto. }
  unfold optimize, optimize_fuel. rewrite Lo.
  assert (prologue E1 opt s d w = prologue E2 opt s d w) as ->; auto.
  unfold prologue. change (evaluateError E2) with (evaluateError E1). rewrite C. reflexivity.
Qed.

(** ** convergence *)
Lemma flt_Below : forall x t, flt x t = true <-> Below x t.
Proof.
  intros x t. unfold Below. destruct (is_finite x) eqn:Fx; destruct (is_finite t) eqn:Ft.
  - rewrite flt_finite by auto. split; intros H; [auto|]. destruct H as [H|[[-> H]|[_ ->]]]; [tauto|discriminate|discriminate].
  - split; intros H.
    + right; right. split; auto. destruct t as [[]|[]| |[] ? ? ?]; try discriminate; auto; destruct x as [[]|[]| |[] ? ? ?]; discriminate.
    + destruct H as [H|[[-> H]|[_ ->]]]; [destruct H as (_ & H & _); discriminate|discriminate|]. destruct x as [[]|[]| |[] ? ? ?]; try discriminate; reflexivity.
  - split; intros H.
    + right; left. destruct x as [[]|[]| |[] ? ? ?]; try discriminate; auto; destruct t as [[]|[]| |[] ? ? ?]; discriminate.
    + destruct H as [H|[[-> H]|[H ->]]]; [destruct H as (H & _); discriminate| |discriminate]. destruct t as [[]|[]| |[] ? ? ?]; try discriminate; reflexivity.
  - split; intros H.
    + right; left. destruct x as [[]|[]| |[] ? ? ?]; try discriminate; destruct t as [[]|[]| |[] ? ? ?]; try discriminate; auto.
    + destruct H as [H|[[-> [H| ->]]|[H ->]]]; [destruct H as (H & _); discriminate|discriminate|reflexivity|discriminate].
Qed.

Lemma update_spec : forall o s, let s' := updateConvergenceStatus o s in
  let g := Below (sGradientNorm s) (oGradientNorm o) in let e := Below (fabs (sDeltaError s)) (oDeltaError o) in let x := Below (sMaxDeltaX s) (oDeltaX o) in
  (g -> sConvergence s' = GRADIENT_NORM) /\ (~ g -> e -> sConvergence s' = DOBJECTIVE) /\ (~ g -> ~ e -> x -> sConvergence s' = DX) /\
  (~ g -> ~ e -> ~ x -> sConvergence s' = sConvergence s) /\
  sGradientNorm s' = sGradientNorm s /\ sMaxDeltaX s' = sMaxDeltaX s /\ sDeltaError s' = sDeltaError s.
Proof.
  intros o s s' g e x. subst s' g e x. rewrite <- !flt_Below. unfold updateConvergenceStatus.
  destruct (flt (sGradientNorm s) (oGradientNorm o)); [cbn; intuition congruence|].
  destruct (flt (fabs (sDeltaError s)) (oDeltaError o)); [cbn; intuition congruence|].
  destruct (flt (sMaxDeltaX s) (oDeltaX o)); cbn; intuition congruence.
Qed.

Lemma check_spec : forall o, check o = true ->
  isnan (oGradientNorm o) = false /\ isnan (oDeltaX o) = false /\ isnan (oDeltaError o) = false /\
  fle f0 (oGradientNorm o) = true /\ fle f0 (oDeltaX o) = true /\ fle f0 (oDeltaError o) = true /\
  (Below f0 (oGradientNorm o) \/ Below f0 (oDeltaX o) \/ Below f0 (oDeltaError o)) /\ (-1 <= oMaxIterations o)%Z.
Proof.
  intros o H. unfold check, fge in H. repeat (apply andb_true_iff in H; destruct H as [H ?]).
  pose proof (fle_nan_r _ _ H). repeat split; auto; try (eapply fle_nan_r; eauto; fail).
  - rewrite <- !flt_Below. repeat match goal with Q : _ || _ = true |- _ => apply orb_true_iff in Q; destruct Q as [Q|Q] end; auto.
  - apply Z.leb_le; auto.
Qed.

Lemma not_below_neg : forall x t, fle f0 x = true -> fle t f0 = true -> ~ Below x t.
Proof.
  intros x t Hx Ht B. pose proof (fle_trans _ _ _ Ht Hx) as L. apply flt_Below in B. unfold fle in L. unfold flt in B. rewrite Bcompare_swap in L.
  destruct (Bcompare x t) as [[]|]; discriminate.
Qed.
Lemma not_below_nan : forall x t, isnan x = true -> ~ Below x t.
Proof. intros x t H [(F & _)|[[-> _]|[F _]]]; [|discriminate|]; destruct x; discriminate. Qed.
Lemma fabs_nonneg : forall x, isnan x = false -> fle f0 (fabs x) = true.
Proof. intros [[]|[]| |[] ? ? ?] H; try discriminate; reflexivity. Qed.

(** a criterion whose threshold is zero (its default for dx and dJ) never fires *)
Lemma disabled : forall o s, let c := sConvergence (updateConvergenceStatus o s) in
  (oDeltaError o = f0 -> c = DOBJECTIVE -> sConvergence s = DOBJECTIVE) /\
  (oDeltaX o = f0 -> (isnan (sMaxDeltaX s) = true \/ fle f0 (sMaxDeltaX s) = true) -> c = DX -> sConvergence s = DX) /\
  (oGradientNorm o = f0 -> (isnan (sGradientNorm s) = true \/ fle f0 (sGradientNorm s) = true) -> c = GRADIENT_NORM -> sConvergence s = GRADIENT_NORM).
Proof.
  intros o s c. subst c. unfold updateConvergenceStatus.
  assert (forall x, isnan x = true \/ fle f0 x = true -> flt x f0 = false) as Z.
  { intros x H. destruct (flt x f0) eqn:E; auto. apply flt_Below in E. exfalso. destruct H as [H|H]; [eapply not_below_nan; eauto|eapply (not_below_neg x f0); eauto]. }
  split; [|split].
  - intros ->. rewrite (Z (fabs (sDeltaError s))).
    + destruct (flt (sGradientNorm s) (oGradientNorm o)); [discriminate|]. destruct (flt (sMaxDeltaX s) (oDeltaX o)); [discriminate|auto].
    + rewrite isnan_fabs. destruct (isnan (sDeltaError s)) eqn:N; auto. right. apply fabs_nonneg; auto.
  - intros -> H. rewrite Z by auto.
    destruct (flt (sGradientNorm s) (oGradientNorm o)); [discriminate|]. destruct (flt (fabs (sDeltaError s)) (oDeltaError o)); [discriminate|auto].
  - intros -> H. rewrite Z by auto.
    destruct (flt (fabs (sDeltaError s)) (oDeltaError o)); [discriminate|]. destruct (flt (sMaxDeltaX s) (oDeltaX o)); [discriminate|auto].
Qed.

Lemma success_spec : forall c, (success c = true <-> c <> IN_PROGRESS /\ c <> FAILURE) /\ (failure c = true <-> c = FAILURE).
Proof. intros []; cbn; intuition congruence. Qed.
Lemma trichotomy : forall c, exists! k : nat, match k with 0%nat => isConverged c = true | 1%nat => isFailed c = true | 2%nat => isInProgress c = true | _ => False end.
Proof.
  intros []; [exists 2%nat|exists 1%nat|exists 0%nat|exists 0%nat|exists 0%nat|exists 0%nat]; (split; [reflexivity|intros [|[|[|]]] H; cbn in H; try discriminate; try contradiction; auto]).
Qed.
