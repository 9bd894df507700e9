(** * Proofs about OptimizationProblem *)
From Coq Require Import Arith Lia List Bool.
From Verif Require Import Lib_Res Problem_Model Problem_Spec.
Import ListNotations.

Notation cnt := (count_occ Nat.eq_dec).

Lemma mem_In : forall x l, mem x l = true <-> In x l.
Proof.
  intros. unfold mem. rewrite existsb_exists. split.
  - intros (y & H1 & H2). apply Nat.eqb_eq in H2. subst. auto.
  - intros H. exists x. split; auto. apply Nat.eqb_refl.
Qed.
Lemma mem_not_In : forall x l, mem x l = false <-> ~ In x l.
Proof. intros. rewrite <- mem_In. destruct (mem x l); intuition congruence. Qed.

Lemma cnt_erase1 : forall x y l, cnt (erase1 x l) y = cnt l y - (if x =? y then 1 else 0).
Proof.
  intros x y. induction l as [|z l IH]; cbn [erase1 count_occ].
  - destruct (x =? y); reflexivity.
  - destruct (Nat.eqb_spec z x).
    + subst z. destruct (Nat.eq_dec x y), (Nat.eqb_spec x y); try lia; congruence.
    + cbn [count_occ]. rewrite IH. destruct (Nat.eq_dec z y), (Nat.eqb_spec x y); try lia; congruence.
Qed.

Lemma filter_erase1 : forall p x l, p x = false -> filter p (erase1 x l) = filter p l.
Proof.
  intros p x l Hp. induction l as [|z l IH]; cbn; auto.
  destruct (Nat.eqb_spec z x); [subst; rewrite Hp; auto|]. cbn. rewrite IH. auto.
Qed.

(** count of the pair (v,t) in a map *)
Definition mcnt (m : list (nat * nat)) (v t : nat) : nat :=
  length (filter (fun e => (fst e =? v) && (snd e =? t)) m).

Lemma mcnt_app : forall m1 m2 v t, mcnt (m1 ++ m2) v t = mcnt m1 v t + mcnt m2 v t.
Proof. intros. unfold mcnt. rewrite filter_app, app_length. auto. Qed.

Lemma mcnt_map : forall l t v t', mcnt (map (fun v => (v, t)) l) v t' = if t =? t' then cnt l v else 0.
Proof.
  intros l t v t'. unfold mcnt. induction l as [|x l IH]; cbn; [destruct (t =? t'); auto|].
  destruct (Nat.eqb_spec t t').
  - rewrite andb_true_r. destruct (Nat.eqb_spec x v), (Nat.eq_dec x v); cbn; try congruence; rewrite IH; auto.
  - rewrite andb_false_r. apply IH.
Qed.

Lemma mcnt_erase1 : forall m v t v' t',
  mcnt (map_erase1 v t m) v' t' = mcnt m v' t' - (if (v =? v') && (t =? t') then 1 else 0).
Proof.
  intros m v t v' t'. unfold mcnt. induction m as [|[a b] m IH]; cbn [map_erase1 filter fst snd].
  - destruct ((v =? v') && (t =? t')); reflexivity.
  - destruct (Nat.eqb_spec a v), (Nat.eqb_spec b t); cbn [andb filter fst snd].
    + subst. destruct ((v =? v') && (t =? t')); cbn; lia.
    + subst a. destruct (Nat.eqb_spec v v'), (Nat.eqb_spec b t'), (Nat.eqb_spec t t'); cbn [andb length] in *; try lia; congruence.
    + subst b. destruct (Nat.eqb_spec a v'), (Nat.eqb_spec v v'), (Nat.eqb_spec t t'); cbn [andb length] in *; try lia; congruence.
    + destruct (Nat.eqb_spec a v'), (Nat.eqb_spec b t'), (Nat.eqb_spec v v'), (Nat.eqb_spec t t'); cbn [andb length] in *; try lia; congruence.
Qed.

Lemma mcnt_erase_all : forall l t m v' t',
  mcnt (fold_left (fun m v => map_erase1 v t m) l m) v' t' = mcnt m v' t' - (if t =? t' then cnt l v' else 0).
Proof.
  intros l t. induction l as [|x l IH]; intros m v' t'; cbn [fold_left count_occ].
  - destruct (t =? t'); lia.
  - rewrite IH, mcnt_erase1. destruct (Nat.eqb_spec t t').
    + rewrite andb_true_r. destruct (Nat.eqb_spec x v'), (Nat.eq_dec x v'); try lia; congruence.
    + rewrite andb_false_r. lia.
Qed.

Lemma cnt_equal_range : forall m v t, cnt (equal_range v m) t = mcnt m v t.
Proof.
  intros m v t. unfold equal_range, mcnt. induction m as [|[a b] m IH]; cbn; auto.
  destruct (Nat.eqb_spec a v); cbn [andb map snd]; auto. cbn.
  destruct (Nat.eqb_spec b t), (Nat.eq_dec b t); cbn; try congruence; rewrite IH; auto.
Qed.

Lemma cnt_app : forall l1 l2 x, cnt (l1 ++ l2) x = cnt l1 x + cnt l2 x.
Proof. intros. apply count_occ_app. Qed.

Section P.
Variables (lists nlists : nat -> list nat).
Variable outside : nat -> bool.

Notation step := (step lists nlists outside).
Notation run := (run lists nlists outside).

(** the invariant of every history *)
Definition inv (p : prob) : Prop :=
  NoDup (p_dvs p) /\
  (forall v t, mcnt (p_map p) v t = cnt (p_terms p) t * cnt (lists t) v) /\
  (forall v t, mcnt (p_nsmap p) v t = cnt (p_ns p) t * cnt (nlists t) v) /\
  (forall t, In t (p_freed p) -> ~ In t (p_terms p) /\ outside t = false).

Lemma inv_empty : inv empty_prob.
Proof. unfold inv, empty_prob; cbn. split; [constructor|]. split; [auto|]. split; [auto|]. intros t []. Qed.

Lemma cnt_single : forall t t', cnt [t] t' = if t =? t' then 1 else 0.
Proof. intros. cbn. destruct (Nat.eqb_spec t t'), (Nat.eq_dec t t'); congruence. Qed.

Lemma In_erase1 : forall x y l, In y (erase1 x l) -> In y l.
Proof.
  intros x y. induction l as [|z l IH]; cbn; auto. destruct (Nat.eqb_spec z x); cbn; intuition.
Qed.

Lemma inv_remove : forall t p p', inv p -> removeErrorTerm lists outside t p = Ok p' ->
  inv p' /\ p_terms p' = erase1 t (p_terms p) /\ p_dvs p' = p_dvs p /\ p_ns p' = p_ns p /\ p_nsmap p' = p_nsmap p /\
  ~ In t (p_freed p).
Proof.
  intros t p p' (I1 & I2 & I3 & I4) H. unfold removeErrorTerm in H.
  destruct (mem t (p_freed p)) eqn:Ef; [discriminate|]. injection H as <-.
  apply mem_not_In in Ef. split; [|cbn; auto]. unfold inv; cbn [p_dvs p_terms p_map p_ns p_nsmap p_freed]. split; [auto|]. split; [|split; [auto|]].
  - intros v t'. rewrite mcnt_erase_all, I2, cnt_erase1. destruct (Nat.eqb_spec t t').
    + subst t'. nia.
    + rewrite !Nat.sub_0_r. auto.
  - intros t' Ht'. apply in_app_or in Ht'. destruct Ht' as [Ht'|Ht'].
    + destruct (mem t (p_terms p)) eqn:Em; [|destruct Ht']. unfold newly_freed in Ht'. cbn in Ht'.
      destruct (negb (mem t (erase1 t (p_terms p))) && negb (outside t)) eqn:H2; [|destruct Ht'].
      destruct Ht' as [<-|[]]. apply andb_true_iff in H2. destruct H2 as [H2 H3].
      apply negb_true_iff in H2, H3. apply mem_not_In in H2. auto.
    + destruct (I4 t' Ht') as [H1 H2]. split; auto. intros X. apply H1. eapply In_erase1; eauto.
Qed.

Lemma inv_removes : forall ts p p', inv p -> removeErrorTerms lists outside ts p = Ok p' ->
  inv p' /\ p_terms p' = fold_left (fun l t => erase1 t l) ts (p_terms p) /\ p_dvs p' = p_dvs p /\ p_ns p' = p_ns p /\ p_nsmap p' = p_nsmap p.
Proof.
  induction ts as [|t ts IH]; intros p p' HI H; cbn in H.
  - injection H as <-. auto.
  - destruct (removeErrorTerm lists outside t p) as [q| |] eqn:Eq; cbn in H; try discriminate.
    destruct (inv_remove t p q HI Eq) as (J1 & J2 & J3 & J4 & J5 & _).
    destruct (IH q p' J1 H) as (L1 & L2 & L3 & L4 & L5). cbn. split; auto. rewrite L2, L3, L4, L5, J2. auto.
Qed.

Lemma fold_erase_filter : forall ts l (q : nat -> bool),
  (forall t, q t = true -> ~ In t ts) -> (forall t, q t = false -> cnt l t <= cnt ts t) ->
  fold_left (fun l t => erase1 t l) ts l = filter q l.
Proof.
  induction ts as [|t ts IH]; intros l q H1 H2; cbn.
  - symmetry. assert (forall x, In x l -> q x = true).
    { intros x Hx. destruct (q x) eqn:E; auto. specialize (H2 x E). cbn in H2.
      apply (count_occ_In Nat.eq_dec) in Hx. lia. }
    clear -H. induction l; cbn; auto. rewrite H by (left; auto). f_equal. apply IHl. intros; apply H; right; auto.
  - assert (Eq : q t = false). { destruct (q t) eqn:E; auto. exfalso. apply (H1 t E). left; auto. }
    rewrite (IH (erase1 t l) q).
    + apply filter_erase1; auto.
    + intros x Hx Hin. apply (H1 x Hx). right; auto.
    + intros x Hx. specialize (H2 x Hx). rewrite cnt_erase1. cbn in H2.
      destruct (Nat.eqb_spec t x), (Nat.eq_dec t x); try congruence; lia.
Qed.

Lemma erase1_filter_NoDup : forall x l, NoDup l -> erase1 x l = filter (fun y => negb (y =? x)) l.
Proof.
  intros x l H. induction H as [|y l Hn Hd IH]; cbn; auto.
  destruct (Nat.eqb_spec y x); cbn.
  - subst. symmetry. rewrite <- IH. clear -Hn. induction l; cbn; auto. destruct (Nat.eqb_spec a x).
    + subst. exfalso; apply Hn; left; auto.
    + f_equal. apply IHl. intros X; apply Hn; right; auto.
  - f_equal. auto.
Qed.

Lemma NoDup_filter' : forall (q : nat -> bool) l, NoDup l -> NoDup (filter q l).
Proof. intros. apply NoDup_filter. auto. Qed.

Lemma inv_removeDV : forall v p p', inv p -> removeDesignVariable lists outside v p = Ok p' ->
  inv p' /\ p_terms p' = filter (fun t => negb (mem v (lists t))) (p_terms p) /\
  p_dvs p' = filter (fun y => negb (y =? v)) (p_dvs p) /\ p_ns p' = p_ns p /\ p_nsmap p' = p_nsmap p.
Proof.
  intros v p p' HI H. unfold removeDesignVariable in H.
  destruct (removeErrorTerms lists outside (equal_range v (p_map p)) p) as [q| |] eqn:Eq; cbn in H; try discriminate.
  injection H as <-. destruct (inv_removes _ p q HI Eq) as (J1 & J2 & J3 & J4 & J5). cbn.
  pose proof HI as (I1 & I2 & _).
  assert (E : erase1 v (p_dvs q) = filter (fun y => negb (y =? v)) (p_dvs p)).
  { rewrite J3. apply erase1_filter_NoDup; auto. }
  split; [|split; [|split; auto]].
  - destruct J1 as (K1 & K2 & K3 & K4). unfold inv; cbn [p_dvs p_terms p_map p_ns p_nsmap p_freed]. split; [|auto]. rewrite E. apply NoDup_filter; auto.
  - rewrite J2. apply fold_erase_filter.
    + intros t Ht Hin. apply (count_occ_In Nat.eq_dec) in Hin. rewrite cnt_equal_range, I2 in Hin.
      apply negb_true_iff, mem_not_In in Ht. apply (count_occ_not_In Nat.eq_dec) in Ht. nia.
    + intros t Ht. rewrite cnt_equal_range, I2. apply negb_false_iff, mem_In in Ht.
      apply (count_occ_In Nat.eq_dec) in Ht. nia.
Qed.

Definition matches (p : prob) (s : spec) : Prop := p_dvs p = s_dvs s /\ p_terms p = s_terms s /\ p_ns p = s_ns s.

Lemma step_ok : forall o p p', inv p -> step o p = Ok p' -> forall s, matches p s -> inv p' /\ matches p' (spec_step lists o s).
Proof.
  intros o p p' HI H s (M1 & M2 & M3). destruct o as [v|t|t|t|v|]; cbn [Problem_Model.step] in H.
  - unfold addDesignVariable in H. destruct (mem v (p_dvs p)) eqn:E; [discriminate|]. injection H as <-.
    unfold matches, spec_step, member. unfold mem in E. rewrite <- M1, E. cbn. split; [|rewrite M2, M3; auto].
    destruct HI as (I1 & I2 & I3 & I4). unfold inv; cbn [p_dvs p_terms p_map p_ns p_nsmap p_freed]. split; [|auto].
    apply mem_not_In in E. clear -I1 E. induction I1 as [|x l Hn Hd IH]; cbn.
    + constructor; auto. constructor.
    + constructor. * intros X. apply in_app_or in X. destruct X as [X|[X|[]]]; [auto|]. apply E. left; auto.
      * apply IH. intros X. apply E. right; auto.
  - unfold addErrorTerm in H. destruct (mem t (p_freed p)) eqn:E; [discriminate|]. injection H as <-.
    unfold matches; cbn. rewrite M1, M2, M3. split; auto.
    destruct HI as (I1 & I2 & I3 & I4). unfold inv; cbn [p_dvs p_terms p_map p_ns p_nsmap p_freed]. rewrite <- M1, <- M2, <- M3. split; [auto|]. split; [|split; [auto|]].
    + intros v t'. rewrite mcnt_app, I2, mcnt_map, cnt_app, cnt_single. destruct (Nat.eqb_spec t t'); subst; nia.
    + apply mem_not_In in E. intros t' Ht'. destruct (I4 t' Ht') as [A1 A2]. split; auto.
      intros X. apply in_app_or in X. destruct X as [X|[X|[]]]; auto. subst; auto.
  - unfold addErrorTermNS in H. injection H as <-.
    unfold matches; cbn. rewrite M1, M2, M3. split; auto.
    destruct HI as (I1 & I2 & I3 & I4). unfold inv; cbn [p_dvs p_terms p_map p_ns p_nsmap p_freed]. rewrite <- M1, <- M2, <- M3. split; [auto|]. split; [auto|]. split; [|auto].
    intros v t'. rewrite mcnt_app, I3, mcnt_map, cnt_app, cnt_single. destruct (Nat.eqb_spec t t'); subst; nia.
  - destruct (inv_remove t p p' HI H) as (J1 & J2 & J3 & J4 & J5 & _). split; auto.
    unfold matches; cbn. rewrite J2, J3, J4, M1, M2, M3. auto.
  - destruct (inv_removeDV v p p' HI H) as (J1 & J2 & J3 & J4 & J5). split; auto.
    unfold matches; cbn. rewrite J2, J3, J4, M1, M2, M3. auto.
  - unfold clear in H. injection H as <-. split; [|unfold matches; cbn; auto].
    destruct HI as (I1 & I2 & I3 & I4). unfold inv; cbn [p_dvs p_terms p_map p_ns p_nsmap p_freed]. split; [constructor|]. split; [auto|]. split; [auto|].
    intros t Ht. split; [auto|]. apply in_app_or in Ht. destruct Ht as [Ht|Ht]; [|apply I4; auto].
    unfold newly_freed in Ht. apply filter_In in Ht. destruct Ht as [_ Ht]. apply andb_true_iff in Ht.
    destruct Ht as [_ Ht]. apply negb_true_iff in Ht. auto.
Qed.

Lemma step_throw : forall o p, step o p = Throw -> exists v, o = AddDV v /\ In v (p_dvs p).
Proof.
  intros o p H. destruct o as [v|t|t|t|v|]; cbn [Problem_Model.step] in H.
  - unfold addDesignVariable in H. destruct (mem v (p_dvs p)) eqn:E; [|discriminate]. apply mem_In in E. eauto.
  - unfold addErrorTerm in H. destruct (mem t (p_freed p)); discriminate.
  - discriminate.
  - unfold removeErrorTerm in H. destruct (mem t (p_freed p)); discriminate.
  - exfalso. unfold removeDesignVariable in H.
    assert (G : forall ts q, removeErrorTerms lists outside ts q <> Throw).
    { induction ts as [|t ts IH]; intros q; cbn; [discriminate|].
      destruct (removeErrorTerm lists outside t q) eqn:E; cbn; [apply IH| |discriminate].
      unfold removeErrorTerm in E. destruct (mem t (p_freed q)); discriminate. }
    specialize (G (equal_range v (p_map p)) p).
    destruct (removeErrorTerms lists outside (equal_range v (p_map p)) p); cbn in H; congruence.
  - discriminate.
Qed.

Lemma run_ok_gen : forall h p s p', inv p -> matches p s -> run h p = Some p' ->
  inv p' /\ matches p' (fold_left (fun s o => spec_step lists o s) h s).
Proof.
  induction h as [|o h IH]; intros p s p' HI HM H; cbn [Problem_Model.run] in H.
  - injection H as <-. auto.
  - cbn [fold_left]. destruct (step o p) as [q| |] eqn:Es; try discriminate.
    + destruct (step_ok o p q HI Es s HM) as [J1 J2]. apply (IH q); auto.
    + apply (IH p); auto. destruct (step_throw o p Es) as (v & -> & Hv). destruct HM as (M1 & M2 & M3).
      cbn. unfold member. rewrite <- M1. apply mem_In in Hv. unfold mem in Hv. rewrite Hv. unfold matches. auto.
Qed.

Lemma run_ok : forall h p, run h empty_prob = Some p -> inv p /\ matches p (spec_run lists h).
Proof. intros. eapply run_ok_gen; eauto. apply inv_empty. unfold matches; cbn; auto. Qed.

(** reported error terms *)
Lemma getErrors_ok : forall p v t, inv p -> (In t (getErrors v p) <-> In t (p_terms p) /\ In v (lists t)).
Proof.
  intros p v t (I1 & I2 & I3 & I4). unfold getErrors.
  rewrite !(count_occ_In Nat.eq_dec), cnt_equal_range, I2. nia.
Qed.
Lemma getNonSquaredErrors_ok : forall p v t, inv p -> (In t (getNonSquaredErrors v p) <-> In t (p_ns p) /\ In v (nlists t)).
Proof.
  intros p v t (I1 & I2 & I3 & I4). unfold getNonSquaredErrors.
  rewrite !(count_occ_In Nat.eq_dec), cnt_equal_range, I3. nia.
Qed.

Lemma countActive_ok : forall active p, countActiveDesignVariables active p = length (filter active (p_dvs p)).
Proof.
  intros. unfold countActiveDesignVariables.
  assert (H : forall l n, fold_left (fun c v => if active v then S c else c) l n = n + length (filter active l)).
  { induction l as [|x l IH]; intros n; cbn; [lia|]. rewrite IH. destruct (active x); cbn; lia. }
  apply H.
Qed.

(** ** C12 *)
Lemma removes_UB_freed : forall ts p t, In t (p_freed p) -> In t ts -> removeErrorTerms lists outside ts p = UB.
Proof.
  induction ts as [|x ts IH]; intros p t Hf Hin; [destruct Hin|]. cbn.
  destruct (removeErrorTerm lists outside x p) as [q| |] eqn:Eq; cbn; auto.
  - unfold removeErrorTerm in Eq. destruct (mem x (p_freed p)) eqn:Ef; [discriminate|]. injection Eq as <-.
    destruct Hin as [->|Hin]; [apply mem_not_In in Ef; contradiction|].
    eapply IH; eauto. cbn. apply in_or_app; auto.
  - unfold removeErrorTerm in Eq. destruct (mem x (p_freed p)); discriminate.
Qed.

Lemma removes_UB_count : forall ts p t, inv p -> outside t = false -> In t (p_terms p) -> cnt (p_terms p) t < cnt ts t ->
  removeErrorTerms lists outside ts p = UB.
Proof.
  induction ts as [|x ts IH]; intros p t HI Ho Hin Hc; [cbn in Hc; lia|]. cbn [removeErrorTerms].
  destruct (removeErrorTerm lists outside x p) as [q| |] eqn:Eq; cbn; auto.
  - destruct (inv_remove x p q HI Eq) as (J1 & J2 & _).
    cbn in Hc. destruct (Nat.eq_dec x t).
    + subst x. destruct (In_dec Nat.eq_dec t (p_terms q)) as [Hq|Hq].
      * apply (IH q t); auto. rewrite J2, cnt_erase1, Nat.eqb_refl. apply (count_occ_In Nat.eq_dec) in Hin. lia.
      * assert (In t ts). { apply (count_occ_In Nat.eq_dec). apply (count_occ_In Nat.eq_dec) in Hin. lia. }
        eapply removes_UB_freed; eauto. unfold removeErrorTerm in Eq.
        destruct (mem t (p_freed p)) eqn:Ef; [discriminate|]. injection Eq as <-. cbn in *.
        apply mem_In in Hin. rewrite Hin. apply in_or_app. left. unfold newly_freed. cbn.
        apply mem_not_In in Hq. rewrite Hq, Ho. cbn. auto.
    + apply (IH q t); auto.
      * rewrite J2. apply (count_occ_In Nat.eq_dec). rewrite cnt_erase1. apply (count_occ_In Nat.eq_dec) in Hin.
        destruct (Nat.eqb_spec x t); [congruence|lia].
      * rewrite J2, cnt_erase1. destruct (Nat.eqb_spec x t); [congruence|lia].
  - unfold removeErrorTerm in Eq. destruct (mem x (p_freed p)); discriminate.
Qed.

Lemma removes_ok : forall ts p, inv p ->
  (forall t, In t ts -> outside t = true \/ cnt ts t <= cnt (p_terms p) t) ->
  exists p', removeErrorTerms lists outside ts p = Ok p'.
Proof.
  induction ts as [|x ts IH]; intros p HI H; [eexists; reflexivity|]. cbn [removeErrorTerms].
  assert (Hx : ~ In x (p_freed p)).
  { intros X. destruct HI as (_ & _ & _ & I4). destruct (I4 x X) as [A1 A2].
    destruct (H x ltac:(left; auto)) as [B|B]; [congruence|].
    apply (count_occ_not_In Nat.eq_dec) in A1. rewrite count_occ_cons_eq in B by reflexivity. lia. }
  destruct (removeErrorTerm lists outside x p) as [q| |] eqn:Eq.
  - cbn. destruct (inv_remove x p q HI Eq) as (J1 & J2 & _). apply IH; auto.
    intros t Ht. destruct (H t ltac:(right; auto)) as [B|B]; [auto|]. right. rewrite J2, cnt_erase1.
    cbn in B. destruct (Nat.eqb_spec x t), (Nat.eq_dec x t); try congruence; lia.
  - unfold removeErrorTerm in Eq. destruct (mem x (p_freed p)); discriminate.
  - unfold removeErrorTerm in Eq. destruct (mem x (p_freed p)) eqn:E; [|discriminate]. apply mem_In in E. contradiction.
Qed.

Lemma removeDV_defined_iff : forall v p, inv p ->
  ((exists p', removeDesignVariable lists outside v p = Ok p') <->
   (forall t, In t (p_terms p) -> outside t = false -> cnt (lists t) v <= 1)) /\
  (removeDesignVariable lists outside v p <> UB <->
   (forall t, In t (p_terms p) -> outside t = false -> cnt (lists t) v <= 1)).
Proof.
  intros v p HI. pose proof HI as (I1 & I2 & _).
  assert (A : (forall t, In t (p_terms p) -> outside t = false -> cnt (lists t) v <= 1) ->
              exists p', removeDesignVariable lists outside v p = Ok p').
  { intros H. destruct (removes_ok (equal_range v (p_map p)) p HI) as (q & Eq).
    - intros t Ht. rewrite cnt_equal_range, I2. destruct (outside t) eqn:Eo; auto. right.
      apply (count_occ_In Nat.eq_dec) in Ht. rewrite cnt_equal_range, I2 in Ht.
      assert (Hin : In t (p_terms p)) by (apply (count_occ_In Nat.eq_dec); nia).
      specialize (H t Hin Eo). nia.
    - unfold removeDesignVariable. rewrite Eq. cbn. eexists; reflexivity. }
  assert (B : removeDesignVariable lists outside v p <> UB ->
              forall t, In t (p_terms p) -> outside t = false -> cnt (lists t) v <= 1).
  { intros H t Hin Ho. destruct (Nat.le_gt_cases (cnt (lists t) v) 1) as [|Hgt]; auto. exfalso. apply H.
    unfold removeDesignVariable. rewrite (removes_UB_count _ p t HI Ho Hin); [reflexivity|].
    rewrite cnt_equal_range, I2. apply (count_occ_In Nat.eq_dec) in Hin. nia. }
  split; split; auto.
  - intros (p' & E). apply B. rewrite E. discriminate.
  - intros H. destruct (A H) as (p' & E). rewrite E. discriminate.
Qed.
End P.

(** ** Statements used in Problem_Props.v *)
Lemma c11 : forall lists nlists outside h p, run lists nlists outside h empty_prob = Some p ->
  let s := spec_run lists h in
  p_dvs p = s_dvs s /\ p_terms p = s_terms s /\ p_ns p = s_ns s /\ NoDup (p_dvs p) /\
  (forall v, isDesignVariableInProblem v p = true <-> In v (s_dvs s)) /\
  (forall v t, In t (getErrors v p) <-> In t (s_terms s) /\ In v (lists t)) /\
  (forall v t, In t (getNonSquaredErrors v p) <-> In t (s_ns s) /\ In v (nlists t)) /\
  (forall active, countActiveDesignVariables active p = length (filter active (s_dvs s))).
Proof.
  intros lists nlists outside h p H s. destruct (run_ok lists nlists outside h p H) as [HI (M1 & M2 & M3)].
  subst s. rewrite <- M1, <- M2, <- M3. split; [auto|]. split; [auto|]. split; [auto|]. split; [apply HI|].
  split; [intros; apply mem_In|]. split; [intros; eapply getErrors_ok; eauto|].
  split; [intros; eapply getNonSquaredErrors_ok; eauto|]. intros; apply countActive_ok.
Qed.

Lemma c11_throw : forall lists nlists outside h p o, run lists nlists outside h empty_prob = Some p ->
  (step lists nlists outside o p = Throw <-> exists v, o = AddDV v /\ In v (s_dvs (spec_run lists h))).
Proof.
  intros lists nlists outside h p o H. destruct (run_ok lists nlists outside h p H) as [HI (M1 & M2 & M3)].
  rewrite <- M1. split.
  - apply step_throw.
  - intros (v & -> & Hv). cbn. unfold addDesignVariable. apply mem_In in Hv. rewrite Hv. reflexivity.
Qed.

Lemma c12 : forall lists nlists outside h p v, run lists nlists outside h empty_prob = Some p ->
  ((forall t, In t (p_terms p) -> outside t = false -> count_occ Nat.eq_dec (lists t) v <= 1) <->
   step lists nlists outside (RemDV v) p <> UB) /\
  (forall p', step lists nlists outside (RemDV v) p = Ok p' ->
    ~ In v (p_dvs p') /\ (forall t, In t (p_terms p') -> ~ In v (lists t)) /\
    (forall t, ~ In v (lists t) -> count_occ Nat.eq_dec (p_terms p') t = count_occ Nat.eq_dec (p_terms p) t) /\
    (forall w, w <> v -> (In w (p_dvs p') <-> In w (p_dvs p))) /\ getErrors v p' = [] /\ p_ns p' = p_ns p).
Proof.
  intros lists nlists outside h p v H. destruct (run_ok lists nlists outside h p H) as [HI _].
  split.
  - symmetry. apply removeDV_defined_iff with (nlists := nlists); auto.
  - intros p' E. destruct (inv_removeDV lists nlists outside v p p' HI E) as (J1 & J2 & J3 & J4 & J5).
    rewrite J2, J3. split; [|split; [|split; [|split; [|split; auto]]]].
    + intros X. apply filter_In in X. destruct X as [_ X]. rewrite Nat.eqb_refl in X. discriminate.
    + intros t X. apply filter_In in X. destruct X as [_ X]. apply negb_true_iff, mem_not_In in X. auto.
    + intros t Ht. apply mem_not_In in Ht. clear -Ht. induction (p_terms p) as [|x l IH]; auto. cbn.
      destruct (Nat.eq_dec x t) as [->|n].
      * rewrite Ht. cbn. destruct (Nat.eq_dec t t); congruence.
      * destruct (negb (mem v (lists x))); cbn; auto. destruct (Nat.eq_dec x t); congruence.
    + intros w Hw. rewrite filter_In. destruct (Nat.eqb_spec w v); cbn; intuition congruence.
    + destruct (getErrors v p') as [|t l] eqn:El; auto. exfalso.
      assert (Hin : In t (getErrors v p')) by (rewrite El; left; auto).
      apply (getErrors_ok lists nlists outside) in Hin; auto. rewrite J2 in Hin. destruct Hin as [H1 H2]. apply filter_In in H1.
      destruct H1 as [_ H1]. apply negb_true_iff, mem_not_In in H1. auto.
Qed.
