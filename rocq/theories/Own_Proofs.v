(** * Ownership: proofs *)
From Coq Require Import Arith Lia List Bool Sorting.Permutation.
From Verif Require Import Own_Model Own_Spec.
Import ListNotations.

Lemma kind_eqb_eq : forall a b, kind_eqb a b = true <-> a = b.
Proof. intros [] []; cbn; split; congruence. Qed.
Lemma take_some : forall i k l r, take i k l = Some r -> Permutation l ((i, k) :: r).
Proof.
  intros i k l. induction l as [|[j q] l IH]; intros r H; cbn [take] in H; [discriminate|].
  destruct ((i =? j) && kind_eqb k q) eqn:E.
  - apply andb_true_iff in E. destruct E as (E1 & E2). apply Nat.eqb_eq in E1. apply kind_eqb_eq in E2. inversion H; subst. auto.
  - destruct (take i k l) as [r'|]; [|discriminate]. inversion H; subst. rewrite (IH r' eq_refl). apply perm_swap.
Qed.
Lemma take_in : forall i k l, In (i, k) l -> exists r, take i k l = Some r.
Proof.
  intros i k l. induction l as [|[j q] l IH]; intros H; [contradiction|]. cbn [take]. destruct ((i =? j) && kind_eqb k q) eqn:E; [eauto|].
  destruct H as [H|H].
  - inversion H; subst. rewrite Nat.eqb_refl, (proj2 (kind_eqb_eq k k) eq_refl) in E. discriminate.
  - destruct (IH H) as (r & ->). eauto.
Qed.

(* what holds after a program: on return, after an exception; N: may a null pointer be followed? *)
Definition wp {A} (N : Prop) (m : M A) (Q : A -> world -> Prop) (E : world -> Prop) (w : world) : Prop :=
  match m w with Ret a w' => Q a w' | Exc w' => E w' | UBnull => N | UBdead => False end.
Lemma wp_seq : forall A B N (m : M A) (f : A -> M B) Q E w, wp N m (fun a w' => wp N (f a) Q E w') E w -> wp N (seqm m f) Q E w.
Proof. intros A B N m f Q E w H. unfold wp, seqm in *. destruct (m w); auto. Qed.
Lemma wp_ret : forall A N (a : A) (Q : A -> world -> Prop) E w, Q a w -> wp N (ret a) Q E w.
Proof. intros. exact H. Qed.
Lemma wp_throw : forall A N (Q : A -> world -> Prop) (E : world -> Prop) w, E w -> wp N throw Q E w.
Proof. intros. exact H. Qed.
Lemma wp_assert : forall N b (Q : unit -> world -> Prop) (E : world -> Prop) w, (b = true -> Q tt w) -> (b = false -> E w) -> wp N (assert b) Q E w.
Proof. intros N [] Q E w H1 H2; [exact (H1 eq_refl)|exact (H2 eq_refl)]. Qed.
Lemma wp_weaken : forall A N (m : M A) (Q Q' : A -> world -> Prop) (E E' : world -> Prop) w, wp N m Q E w -> (forall a w', Q a w' -> Q' a w') -> (forall w', E w' -> E' w') -> wp N m Q' E' w.
Proof. intros A N m Q Q' E E' w H H1 H2. unfold wp in *. destruct (m w); auto. Qed.

Section Rules.
  Variable orc : call -> nat -> ans.
  Hypothesis P : promise orc.
  Variable k : kind.
  Notation held := (tidy_but k).

  Lemma held_perm : forall e e' w, held e w -> Permutation e e' -> held e' w.
  Proof. unfold tidy_but. intros e e' w H Pe. rewrite H, Pe. auto. Qed.
  Lemma wp_ask : forall N c (Q : ans -> world -> Prop) E w e, held e w ->
    (forall n w', held e w' -> factor w' = factor w -> status w' = an_stat (orc c n) -> Q (orc c n) w') -> wp N (ask orc c) Q E w.
  Proof.
    intros N c Q E w e H HQ. unfold wp, ask. cbn [work is_null]. destruct (an_work (orc c (tick w)) && is_null (work w)) eqn:Ew.
    - apply HQ; try reflexivity. unfold tidy_but, own in *. cbn [live factor work fresh]. apply andb_true_iff in Ew. destruct Ew as (_ & Ew). destruct (work w); [discriminate|].
      cbn [handed] in *. rewrite app_nil_r in H. rewrite H. rewrite <- app_assoc. cbn [app]. apply Permutation_middle.
    - apply HQ; try reflexivity. exact H.
  Qed.
  Lemma wp_obtain : forall N c k' (Q : ptr * bool -> world -> Prop) E w e, held e w ->
    (forall p b n w', held (handed p k' ++ e) w' -> factor w' = factor w -> is_null p = an_null (orc c n) -> status w' = an_stat (orc c n) -> Q (p, b) w') -> wp N (obtain orc c k') Q E w.
  Proof.
    intros N c k' Q E w e H HQ. unfold obtain. apply wp_seq. apply wp_ask with e; auto. intros n w' H' F S. unfold wp. destruct (an_null (orc c n)) eqn:En.
    - apply HQ with n; auto.
    - apply HQ with n; auto. unfold tidy_but, own in *. cbn [live factor work handed]. rewrite H'. cbn [app]. apply Permutation_middle.
  Qed.
  Lemma held_live : forall i k' e w, held ((i, k') :: e) w -> exists r, take i k' (live w) = Some r /\ held e (set_live r w).
  Proof.
    intros i k' e w H. unfold tidy_but in *. destruct (take_in i k' (live w)) as (r & E).
    - eapply Permutation_in; [symmetry; exact H|]. apply in_or_app. right. left. auto.
    - exists r. split; auto. pose proof (take_some _ _ _ _ E) as H2. unfold own, set_live in *. cbn [live factor work].
      apply Permutation_cons_inv with (i, k'). rewrite <- H2, H. symmetry. apply Permutation_middle.
  Qed.
  Lemma wp_free : forall N k' p (Q : unit -> world -> Prop) E w e e', held e w -> Permutation e (handed p k' ++ e') ->
    (forall w', held e' w' -> factor w' = factor w -> status w' = status w -> Q tt w') -> wp N (lib_free k' p) Q E w.
  Proof.
    intros N k' p Q E w e e' H Pe HQ. unfold wp, lib_free. apply (held_perm _ _ _ H) in Pe. destruct p as [i|]; cbn [handed app] in Pe.
    - destruct (held_live i k' e' w Pe) as (r & -> & H2). apply HQ; auto.
    - apply HQ; auto.
  Qed.
  Lemma wp_chfree : forall N k' p (Q : unit -> world -> Prop) E w e e', held e w -> Permutation e (handed p k' ++ e') ->
    (forall w', held e' w' -> factor w' = factor w -> status w' = status w -> Q tt w') -> wp N (ch_free k' p) Q E w.
  Proof.
    intros N k' p Q E w e e' H Pe HQ. unfold ch_free. destruct p as [i|]; cbn [is_null]; [eapply wp_free; eauto|]. apply wp_ret. apply HQ; auto. apply held_perm with e; auto.
  Qed.
  Lemma wp_touch : forall (N : Prop) k' p (Q : unit -> world -> Prop) E w e e', held e w -> Permutation e (handed p k' ++ e') -> (is_null p = true -> N) ->
    (is_null p = false -> Q tt w) -> wp N (touch k' p) Q E w.
  Proof.
    intros N k' p Q E w e e' H Pe HN HQ. unfold wp, touch. apply (held_perm _ _ _ H) in Pe. destruct p as [i|]; cbn [handed app is_null] in *; auto.
    destruct (held_live i k' e' w Pe) as (r & -> & H2). auto.
  Qed.
  Lemma wp_touch_factor : forall (N : Prop) p (Q : unit -> world -> Prop) E w e, held e w -> factor w = p -> (is_null p = true -> N) -> (is_null p = false -> Q tt w) -> wp N (touch k p) Q E w.
  Proof.
    intros N p Q E w e H F HN HQ. unfold wp, touch. destruct p as [i|]; cbn [is_null] in *; auto. destruct (take_in i k (live w)) as (r & ->); auto.
    unfold tidy_but, own in H. rewrite F in H. eapply Permutation_in; [symmetry; exact H|]. left. auto.
  Qed.
  Lemma wp_get : forall N (Q : ptr -> world -> Prop) E w, Q (factor w) w -> wp N get_factor Q E w.
  Proof. intros. exact H. Qed.
  Lemma wp_status : forall N (Q : stat -> world -> Prop) E w, Q (status w) w -> wp N get_status Q E w.
  Proof. intros. exact H. Qed.
  (* a new factor where there was none *)
  Lemma wp_set : forall N p (Q : unit -> world -> Prop) E w e e', held e w -> Permutation e (handed p k ++ e') -> factor w = None ->
    (forall w', held e' w' -> factor w' = p -> status w' = status w -> Q tt w') -> wp N (set_factor p) Q E w.
  Proof.
    intros N p Q E w e e' H Pe F HQ. unfold wp, set_factor. apply HQ; auto. unfold tidy_but, own in *. cbn [live factor work]. rewrite F in H. cbn [handed app] in H. rewrite H, Pe.
    rewrite <- app_assoc. rewrite !app_assoc. apply Permutation_app_tail. apply Permutation_app_comm.
  Qed.
  (* free the factor, then forget it *)
  Lemma wp_drop : forall N p (Q : unit -> world -> Prop) E w e, held e w -> factor w = p ->
    (forall w', held e w' -> factor w' = None -> status w' = status w -> Q tt w') -> wp N (lib_free k p;; set_factor None) Q E w.
  Proof.
    intros N p Q E w e H F HQ. apply wp_seq. unfold wp, lib_free, set_factor. destruct p as [i|].
    - destruct (take_in i k (live w)) as (r & E2). { unfold tidy_but, own in H. rewrite F in H. eapply Permutation_in; [symmetry; exact H|]. left. auto. }
      rewrite E2. apply HQ; auto. unfold tidy_but, own in *. cbn [live factor work set_live handed app]. rewrite F in H. cbn [handed app] in H.
      apply Permutation_cons_inv with (i, k). rewrite <- H. symmetry. apply take_some. auto.
    - apply HQ; auto. unfold tidy_but, own in *. cbn [live factor work]. rewrite F in H. exact H.
  Qed.
  Lemma wp_finish : forall N (Q : unit -> world -> Prop) E w e, held e w -> (forall w', held e w' -> factor w' = factor w -> work w' = None -> Q tt w') -> wp N lib_finish Q E w.
  Proof.
    intros N Q E w e H HQ. unfold wp, lib_finish, seqm, lib_free. destruct (work w) as [i|] eqn:Ew.
    - assert (H2 : Permutation (live w) ((i, KWork) :: handed (factor w) k ++ e)). { unfold tidy_but, own in H. rewrite H, Ew. cbn [handed]. rewrite <- app_assoc. cbn [app]. symmetry. apply Permutation_middle. }
      destruct (take_in i KWork (live w)) as (r & E2); [eapply Permutation_in; [symmetry; exact H2|]; left; auto|]. rewrite E2. apply HQ; auto.
      unfold tidy_but, own. cbn [live factor work set_live handed]. rewrite app_nil_r. apply Permutation_cons_inv with (i, KWork). rewrite <- H2. symmetry. apply take_some. auto.
    - apply HQ; auto. unfold tidy_but, own in *. cbn [live factor work handed]. rewrite Ew in H. exact H.
  Qed.
  Lemma null_status : forall c n p w', is_null p = an_null (orc c n) -> status w' = an_stat (orc c n) -> stat_ok (status w') = negb (is_null p).
  Proof.
    intros c n p w' E S. rewrite S, E. destruct (P c n) as (H1 & H2). destruct (an_null (orc c n)), (an_stat (orc c n)); cbn; auto; try (specialize (H1 eq_refl); congruence); symmetry; try (specialize (H2 ltac:(discriminate)); discriminate).
  Qed.
End Rules.
