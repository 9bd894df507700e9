(** * Cached expressions: executions *)
From Coq Require Import Arith List Bool Lia.
From Verif Require Import Lib_Ring Cache_Model Cache_Spec Cache_Proofs Cache_Proofs2.
Import ListNotations.

Section P.
  Context {K : Type} {R : CRing K}.
  Variable N : @nodes K.
  Local Notation jst_t := (option (bool * list nat)).

  Definition next (jst : jst_t) (l : label N) : jst_t :=
    match l with
    | LUpdate _ d _ | LRevert _ d | LSetParameters _ d _ => drop_st jst d
    | LActive _ d _ => match jst with Some (true, pend) => Some (true, d :: pend) | _ => jst end
    | LSpawn _ js => spawn_st N jst js
    | _ => jst
    end.
  Definition allowed (Vok : Prop) (jst : jst_t) (l : label N) : Prop :=
    match l with
    | LSet _ _ _ => ~ Vok | LCache _ e => Vok -> no_if N e
    | LSpawn _ js => forall b pend, jst = Some (b, pend) -> existsb (wants_J N) js = true -> pend = []
    | _ => True
    end.
  Lemma step_inv : forall Vok jst w l w', inv N Vok jst w -> allowed Vok jst l -> enabled N w l -> step N w l = Some w' -> inv N Vok (next jst l) w'.
  Proof.
    intros Vok jst w l w' I A En E. destruct l as [d dp|d|d v|d v|d b|e|js|i]; cbn [step] in E; cbn [next allowed enabled] in *;
      try (destruct (quiet N w) eqn:Q; [injection E as <-|discriminate]).
    - apply (change_inv N Vok jst w); auto.
    - apply (change_inv N Vok jst w); auto.
    - apply (change_inv N Vok jst w); auto.
    - apply (set_inv N Vok jst w); auto.
    - apply (active_inv N Vok jst w); auto.
    - apply (cache_inv N Vok jst w); auto.
    - apply (spawn_inv N Vok jst w); auto.
    - destruct (nth_error (threads N w) i) as [[q p]|] eqn:ET; [|discriminate]. destruct (tstep N w i p) as [[w1 p1]|] eqn:ES; [|discriminate]. injection E as <-. eapply tstep_inv; eauto.
  Qed.
  Lemma init_inv : forall Vok jst s p a, inv N Vok jst (init N s p a).
  Proof.
    intros Vok jst s p a. apply calm; auto; cbn; try discriminate.
    - intros [|i] e H; discriminate.
    - intros _ [|i] e d H; discriminate.
  Qed.

  (* histories in which nothing is promised *)
  Lemma any_inv : forall w ls w', inv N False None w -> runs N w ls w' -> inv N False None w'.
  Proof.
    intros w ls w' I H. induction H as [w|w l w1 ls w2 En E _ IH]; auto. apply IH.
    replace (@None (bool * list nat)) with (next None l) by (destruct l; auto). eapply step_inv; eauto. destruct l; cbn; auto; try contradiction. discriminate.
  Qed.
  Lemma plain_inv : forall w ls w', inv N True None w -> Forall (plain N) ls -> runs N w ls w' -> inv N True None w'.
  Proof.
    intros w ls w' I F H. induction H as [w|w l w1 ls w2 En E _ IH]; auto. inversion F as [|? ? F1 F2]; subst. apply IH; auto.
    replace (@None (bool * list nat)) with (next None l) by (destruct l; auto). eapply step_inv; eauto. destruct l; cbn in *; auto; try contradiction. discriminate.
  Qed.
  Lemma disc_inv : forall w ls w' b pend, inv N True (Some (b, pend)) w -> Forall (plain N) ls -> disciplined N b pend ls -> runs N w ls w' -> exists b' pend', inv N True (Some (b', pend')) w'.
  Proof.
    intros w ls w' b pend I F D H. revert b pend I D. induction H as [w|w l w1 ls w2 En E _ IH]; intros b pend I D; eauto. inversion F as [|? ? F1 F2]; subst.
    assert (A : allowed True (Some (b, pend)) l).
    { destruct l; cbn in *; auto. intros b' pend' Ej X. injection Ej as <- <-. rewrite X in D. apply D. }
    pose proof (step_inv True (Some (b, pend)) w l w1 I A En E) as I1. destruct l as [d dp|d|d v|d v|d t|e|js|i]; cbn [next drop_st spawn_st disciplined] in *; try (eapply IH; eauto; fail).
    - destruct b; eapply IH; eauto.
    - destruct (existsb (wants_J N) js) eqn:EJ.
      + destruct D as (-> & D). rewrite orb_true_r in I1. eapply IH; eauto.
      + rewrite orb_false_r in I1. eapply IH; eauto.
  Qed.

  (** ** Answers *)
  Lemma done_ok : forall Vok jst w i q r, inv N Vok jst w -> nth_error (threads N w) i = Some (q, PDone r) -> Rok N Vok jst q -> r = answer N w q.
  Proof. intros Vok jst w i q r I H HR. destruct (i_threads _ _ _ _ I) as (kn & hs & H1 & _). destruct (H1 _ _ _ H) as ((_ & S) & _). auto. Qed.
  Lemma value_ok : forall s p a ls w i e r, Forall (plain N) ls -> runs N (init N s p a) ls w -> nth_error (threads N w) i = Some (JobV N e, PDone r) -> r = option_map inl (pval N e (vals N w)).
  Proof. intros s p a ls w i e r F H Hi. apply (done_ok True None w i (JobV N e) r); auto; [|exact I]. eapply plain_inv; eauto. apply init_inv. Qed.
  Lemma jacobian_ok : forall s p a ls w i e r, Forall (plain N) ls -> disciplined N false [] ls -> runs N (init N s p a) ls w -> nth_error (threads N w) i = Some (JobJ N e, PDone r) ->
    r = option_map inr (pjac N e (vals N w) (active N w)).
  Proof.
    intros s p a ls w i e r F D H Hi. destruct (disc_inv _ _ _ false [] (init_inv True (Some (false, [])) s p a) F D H) as (b & pend & IV).
    apply (done_ok True (Some (b, pend)) w i (JobJ N e) r); auto. cbn. split; [exact I|]. exists b. rewrite (i_pend _ _ _ _ IV _ _ _ b pend eq_refl Hi eq_refl). auto.
  Qed.

  (** ** Races *)
  Lemma contents_ok : forall s p a ls w i q x, runs N (init N s p a) ls w -> nth_error (threads N w) i = Some (q, x) ->
    x <> PBad /\ (forall c, writes x c -> mutex N w c = Some i /\ flag N w c = false) /\ (forall c, reads x c -> flag N w c = true /\ cont N w c <> None).
  Proof.
    intros s p a ls w i q x H Hi. pose proof (any_inv _ _ _ (init_inv False None s p a) H) as IV. destruct (i_threads _ _ _ _ IV) as (kn & hs & H1 & _). destruct (H1 _ _ _ Hi) as (S & T2 & _ & T4).
    split; [intros ->; exact S|]. split.
    - intros c W. destruct x; cbn in W; try contradiction; subst; cbn [safe] in S.
      + destruct (hs i) as [|[c' []] t]; try contradiction. destruct S as (-> & _). destruct (T4 c LFresh (or_introl eq_refl)) as (_ & U & V & _). split; auto. apply V. discriminate.
      + destruct (hs i) as [|[c' []] t]; try contradiction. destruct S as (-> & _). destruct (T4 c LTorn (or_introl eq_refl)) as (_ & U & V & _). split; auto. apply V. discriminate.
    - intros c W. destruct x; cbn in W; try contradiction; subst; cbn [safe] in S. destruct S as (S & _). split; auto. destruct (i_cells _ _ _ _ IV c (T2 _ S)) as (d & -> & _). discriminate.
  Qed.
  Lemma no_race : forall s p a ls w i j q q' x x' c, runs N (init N s p a) ls w -> nth_error (threads N w) i = Some (q, x) -> nth_error (threads N w) j = Some (q', x') -> i <> j -> writes x c -> ~ writes x' c /\ ~ reads x' c.
  Proof.
    intros s p a ls w i j q q' x x' c H Hi Hj NE W. destruct (contents_ok _ _ _ _ _ _ _ _ H Hi) as (_ & A & _). destruct (contents_ok _ _ _ _ _ _ _ _ H Hj) as (_ & B & C). destruct (A c W) as (A1 & A2). split.
    - intros W'. destruct (B c W'). congruence.
    - intros W'. destruct (C c W'). congruence.
  Qed.

  (** ** Progress *)
  Lemma progress_at : forall n w i q x, inv N False None w -> nth_error (threads N w) i = Some (q, x) -> (match x with PDone _ => False | PLock c _ => snd c < n | _ => True end) -> exists w', moves N w' w.
  Proof.
    induction n as [n IH] using lt_wf_ind. intros w i q x IV Hi B. destruct (i_threads _ _ _ _ IV) as (kn & hs & H1 & H2 & H3). destruct (H1 _ _ _ Hi) as (S & _).
    destruct x as [r|c k|c k|c k|c k|c d k|c k|c k|]; try contradiction; try (eexists; exists i; cbn; rewrite Hi; cbn; reflexivity).
    destruct (mutex N w c) as [j|] eqn:EM; [|eexists; exists i; cbn; rewrite Hi; cbn; rewrite EM; reflexivity].
    specialize (H3 _ _ EM). destruct (nth_error (threads N w) j) as [[q' x']|] eqn:Hj; [|rewrite (H2 _ Hj) in H3; destruct H3]. destruct (H1 _ _ _ Hj) as (S' & _).
    apply (IH (snd c) B w j q' x' IV Hj). destruct x' as [r|c' k'|c' k'|c' k'|c' k'|c' d' k'|c' k'|c' k'|]; auto; cbn [safe] in S'.
    - destruct S' as (S' & _). rewrite S' in H3. destruct H3.
    - destruct S' as (_ & S' & _). apply in_map_iff in H3. destruct H3 as (y & <- & Hy). auto.
  Qed.
  Lemma progress : forall s p a ls w, runs N (init N s p a) ls w -> quiet N w = false -> exists w', moves N w' w.
  Proof.
    intros s p a ls w H Q. pose proof (any_inv _ _ _ (init_inv False None s p a) H) as IV.
    assert (E : exists q x, In (q, x) (threads N w) /\ match x with PDone _ => False | _ => True end).
    { unfold quiet in Q. induction (threads N w) as [|[q x] t IH]; cbn in Q; [discriminate|]. destruct x; try (eexists _, _; split; [left; reflexivity|exact I]; fail). cbn in Q. destruct (IH Q) as (q' & x' & H1 & H2). exists q', x'. split; auto. right. auto. }
    destruct E as (q & x & Hx & NX). apply In_nth_error in Hx. destruct Hx as (i & Hi). apply (progress_at (S (match x with PLock c _ => snd c | _ => 0 end)) w i q x IV Hi). destruct x; auto.
  Qed.

  (** ** Termination *)
  Inductive sub : @prog K -> @prog K -> Prop :=
  | sub_flag : forall c k b, sub (k b) (PFlag c k) | sub_lock : forall c k, sub k (PLock c k) | sub_unlock : forall c k, sub k (PUnlock c k)
  | sub_begin : forall c k, sub k (PBegin c k) | sub_end : forall c d k, sub k (PEnd c d k) | sub_set : forall c k, sub k (PSet c k)
  | sub_read : forall c k d, sub (k d) (PRead c k) | sub_bad : forall c k, sub PBad (PRead c k).
  Lemma sub_wf : forall p, Acc sub p.
  Proof.
    assert (AB : Acc sub PBad) by (constructor; intros y H; inversion H).
    induction p; constructor; intros y Hy; inversion Hy; subst; auto.
  Qed.
  Lemma tstep_sub : forall w i p w' p', tstep N w i p = Some (w', p') -> sub p' p.
  Proof.
    intros w i p w' p' E. destruct p; cbn in E; try discriminate; try (injection E as <- <-; constructor; fail).
    - destruct (mutex N w c); [discriminate|]. injection E as <- <-. constructor.
    - injection E as <- <-. destruct (cont N w c); constructor.
  Qed.
  Definition subl (l' l : list (job N * @prog K)) : Prop := exists i q p p', nth_error l i = Some (q, p) /\ sub p' p /\ l' = replace l i (q, p').
  Lemma subl_wf : forall l, Acc subl l.
  Proof.
    induction l as [|[q p] l IH].
    - constructor. intros y (i & q & p & p' & H & _). destruct i; discriminate.
    - revert l IH. induction (sub_wf p) as [p _ IHp]. intros l IH. induction IH as [l HA IHl]. constructor. intros y (i & q0 & p0 & p' & H & S & ->). destruct i as [|i]; cbn in *.
      + injection H as <- <-. apply IHp; auto. constructor. exact HA.
      + apply IHl. exists i, q0, p0, p'. auto.
  Qed.
  Lemma moves_wf : forall w, Acc (moves N) w.
  Proof.
    intros w. remember (threads N w) as l eqn:El. revert w El. induction (subl_wf l) as [l _ IH]. intros w ->. constructor. intros w' (i & E). cbn in E.
    destruct (nth_error (threads N w) i) as [[q p]|] eqn:Hi; [|discriminate]. destruct (tstep N w i p) as [[w1 p1]|] eqn:ES; [|discriminate]. injection E as <-. eapply IH; [|reflexivity]. exists i, q, p, p1. split; auto. split; auto. eapply tstep_sub; eauto.
  Qed.
  Lemma runs_snoc : forall w ls w1 l w2, runs N w ls w1 -> enabled N w1 l -> step N w1 l = Some w2 -> runs N w (ls ++ [l]) w2.
  Proof. intros w ls w1 l w2 H En E. induction H; cbn; [eapply runs_cons; eauto; constructor|eapply runs_cons; eauto]. Qed.
  (* every reachable state can be run to the end by thread steps, and every way of scheduling the threads gets there *)
  Lemma finishes : forall s p a ls w, runs N (init N s p a) ls w -> exists ls' w', (forall l, In l ls' -> exists i, l = LThread N i) /\ runs N w ls' w' /\ quiet N w' = true.
  Proof.
    intros s p a ls w H. revert ls H. induction (moves_wf w) as [w _ IH]. intros ls H. destruct (quiet N w) eqn:Q.
    - exists [], w. split; [intros l []|]. split; auto. constructor.
    - destruct (progress _ _ _ _ _ H Q) as (w1 & M). destruct M as (i & E). destruct (IH w1 (ex_intro _ i E) (ls ++ [LThread N i]) (runs_snoc _ _ _ (LThread N i) _ H I E)) as (ls' & w' & A & B & C).
      exists (LThread N i :: ls'), w'. split; [intros l [<-|Hl]; eauto|]. split; auto. eapply runs_cons; eauto. exact I.
  Qed.
End P.
