(** * Cache expressions: the invariant (proofs only) *)
From Coq Require Import Arith Lia List Bool.
From Verif Require Import Lib_Ring Cache_Model Cache_Spec Cache_Proofs.
Import ListNotations.

Section P.
  Context {K : Type} {R : CRing K}.
  Variable N : @nodes K.
  Notation cx := (cx N). Notation job := (job N). Notation world := (world N). Notation label := (label N).
  Notation prog := (@prog K). Notation datum := (@datum K).

  (** ** Lists *)
  Lemma nth_replace_eq : forall A (l : list A) i a b, nth_error l i = Some b -> nth_error (replace l i a) i = Some a.
  Proof. induction l as [|x l IH]; intros [|i] a b H; cbn in *; try discriminate; eauto. Qed.
  Lemma nth_replace_neq : forall A (l : list A) i j a, i <> j -> nth_error (replace l i a) j = nth_error l j.
  Proof. induction l as [|x l IH]; intros [|i] [|j] a H; cbn; auto; try lia. Qed.
  Lemma existsb_In : forall i l, existsb (Nat.eqb i) l = true <-> In i l.
  Proof. intros i l. rewrite existsb_exists. split; [intros (x & H & E); apply Nat.eqb_eq in E; subst; auto|intros H; exists i; split; auto; apply Nat.eqb_refl]. Qed.

  (** ** Expressions depend only on their design variables *)
  Lemma dvs_no_if : forall e s s', no_if N e -> dvs N e s = dvs N e s'.
  Proof. induction e; cbn; intros s s' H; auto; [destruct H; f_equal; auto|destruct H]. Qed.
  Lemma pval_ext : forall e s s', no_if N e -> (forall d, In d (dvs N e s) -> s d = s' d) -> pval N e s = pval N e s'.
  Proof.
    induction e as [d|v|o a IH|o a IHa b IHb|c a IHa b IHb|i e IH]; cbn; intros s s' H E; auto.
    - rewrite (E d); auto.
    - rewrite (IH s s'); auto.
    - destruct H. rewrite (IHa s s'), (IHb s s'); auto; intros; apply E, in_or_app; auto.
    - destruct H.
  Qed.
  Lemma pjac_ext : forall e s s' t t', no_if N e -> (forall d, In d (dvs N e s) -> s d = s' d /\ t d = t' d) -> pjac N e s t = pjac N e s' t'.
  Proof.
    induction e as [d|v|o a IH|o a IHa b IHb|c a IHa b IHb|i e IH]; cbn; intros s s' t t' H E; auto.
    - destruct (E d (or_introl eq_refl)) as (-> & ->). auto.
    - rewrite (IH s s' t t'), (pval_ext a s s'); auto. intros; apply E; auto.
    - destruct H. rewrite (IHa s s' t t'), (IHb s s' t t'), (pval_ext a s s'), (pval_ext b s s'); auto; intros; apply E, in_or_app; auto.
    - destruct H.
  Qed.

  (** ** The invariant
      Vok: values are guaranteed; jst: the state of the activity discipline, None if it is not kept *)
  Section Inv.
    Variables (Vok : Prop).
    Definition Jok (jst : option (bool * list nat)) : Prop := Vok /\ exists b, jst = Some (b, []).
    Definition good (jst : option (bool * list nat)) (w : world) (c : cell) : Prop :=
      match fst c with
      | KV => Vok
      | KJ => Vok /\ exists b pend, jst = Some (b, pend) /\ forall e, nth_error (defs N w) (snd c) = Some e -> forall d, In d (dvs N e (vals N w)) -> ~ In d pend end.
    Definition wspec (w : world) : cell -> option datum := spec N (defs N w) (vals N w) (active N w).
    Definition touch (w : world) (q : job) (c : cell) : Prop := (wants_J N q = true \/ fst c = KV) /\ snd c < length (defs N w).
    Definition Rok jst (q : job) : Prop := if wants_J N q then Jok jst else Vok.
    Definition G jst : cell -> Prop := GG Vok (Jok jst).
    Definition right (P : Prop) (w : world) (c : cell) : Prop := exists d, cont N w c = Some d /\ shape c d /\ (P -> wspec w c = Some d).
    Definition hold_ok jst (w : world) (i : nat) (q : job) (c : cell) (s : lst) : Prop :=
      touch w q c /\ mutex N w c = Some i /\ (s <> LUnk -> flag N w c = false) /\ (s = LWritten -> right (G jst c) w c).
    Definition thread_ok jst (w : world) (i : nat) (q : job) (p : prog) (kn : list cell) (hs : list (cell * lst)) : Prop :=
      safe (touch w q) (G jst) (wspec w) (Rok jst q) (answer N w q) kn hs p /\ (forall c, In c kn -> flag N w c = true) /\ NoDup (map fst hs) /\ forall c s, In (c, s) hs -> hold_ok jst w i q c s.
    Record inv (jst : option (bool * list nat)) (w : world) : Prop := {
      i_defs : forall i e, nth_error (defs N w) i = Some e -> wf N (defs N w) e /\ (forall j, In j (cids N e) -> j < i) /\ (Vok -> no_if N e);
      i_reg : Vok -> forall i e d, nth_error (defs N w) i = Some e -> In d (dvs N e (vals N w)) -> In i (reg N w d);
      i_cells : forall c, flag N w c = true -> right (good jst w c) w c;
      i_len : forall c, flag N w c = true -> snd c < length (defs N w);
      i_wf : forall i q p, nth_error (threads N w) i = Some (q, p) -> wf N (defs N w) (job_ex N q);
      i_threads : exists kn hs, (forall i q p, nth_error (threads N w) i = Some (q, p) -> thread_ok jst w i q p (kn i) (hs i)) /\
        (forall i, nth_error (threads N w) i = None -> hs i = []) /\ (forall c i, mutex N w c = Some i -> In c (map fst (hs i)));
      i_start : forall pend, jst = Some (false, pend) -> (forall i, flag N w (KJ, i) = false) /\ forall i q p, nth_error (threads N w) i = Some (q, p) -> wants_J N q = false;
      i_pend : forall i q p b pend, jst = Some (b, pend) -> nth_error (threads N w) i = Some (q, p) -> wants_J N q = true -> pend = [] }.

    Definition same (w w' : world) : Prop := defs N w' = defs N w /\ vals N w' = vals N w /\ active N w' = active N w /\ reg N w' = reg N w.
    Lemma same_spec : forall w w', same w w' -> wspec w' = wspec w /\ (forall q, answer N w' q = answer N w q) /\ (forall q, touch w' q = touch w q) /\ forall jst, good jst w' = good jst w.
    Proof. intros w w' (E1 & E2 & E3 & E4). unfold wspec, answer, touch, good. rewrite E1, E2, E3. auto. Qed.
    Lemma right_ext : forall (P Q : Prop) w w' c, same w w' -> cont N w' c = cont N w c -> (Q -> P) -> right P w c -> right Q w' c.
    Proof. intros P Q w w' c S E I (d & C & Sh & H). exists d. rewrite E. destruct (same_spec w w' S) as (-> & _). auto. Qed.
    Lemma held_good : forall jst w q c, (forall b pend, jst = Some (b, pend) -> wants_J N q = true -> pend = []) -> touch w q c -> good jst w c -> G jst c.
    Proof.
      intros jst w q [[|] i] HP (HT & _) HG; cbn in *; auto. destruct HG as (V & b & pend & E & _). split; auto. destruct HT as [HT|HT]; [|discriminate]. rewrite (HP _ _ E HT) in E. eauto.
    Qed.
    Lemma safe_same : forall jst w w' q kn hs p, same w w' -> safe (touch w q) (G jst) (wspec w) (Rok jst q) (answer N w q) kn hs p -> safe (touch w' q) (G jst) (wspec w') (Rok jst q) (answer N w' q) kn hs p.
    Proof. intros jst w w' q kn hs p S H. destruct (same_spec w w' S) as (E1 & E2 & E3 & _). rewrite E1, E2, E3. auto. Qed.

    (* one thread moves: what has to be shown *)
    Lemma thread_moves : forall jst w w' i q p p', inv jst w -> same w w' -> threads N w' = threads N w -> nth_error (threads N w) i = Some (q, p) ->
      (forall kn hs, thread_ok jst w i q p kn hs -> (forall c, mutex N w c = Some i -> In c (map fst hs)) ->
         exists kn' hs', thread_ok jst w' i q p' kn' hs' /\ (forall c, mutex N w' c = Some i -> In c (map fst hs')) /\
         (forall c, flag N w c = true -> flag N w' c = true) /\
         (forall c j, j <> i -> mutex N w c = Some j -> mutex N w' c = Some j /\ flag N w' c = flag N w c /\ cont N w' c = cont N w c) /\
         (forall c j, j <> i -> mutex N w' c = Some j -> mutex N w c = Some j) /\
         (forall c, flag N w' c = true -> flag N w c = true /\ cont N w' c = cont N w c \/ touch w q c /\ right (G jst c) w' c)) ->
      inv jst (with_threads N w' (replace (threads N w) i (q, p'))).
    Proof.
      intros jst w w' i q p p' I S ET Ht H. destruct (i_threads _ _ I) as (kn & hs & H1 & H2 & H3). destruct (H (kn i) (hs i)) as (kn' & hs' & A & B & C & D & E & F); [apply H1; auto|intros c Hc; apply H3; auto|].
      set (w2 := with_threads N w' (replace (threads N w) i (q, p'))). assert (S2 : same w w2) by exact S. destruct S as (S1 & S3 & S4 & S5).
      assert (HP : forall b pend, jst = Some (b, pend) -> wants_J N q = true -> pend = []) by (intros b pend EJ HJ; eapply (i_pend _ _ I); eauto).
      assert (TH : forall j q0 p0, nth_error (threads N w2) j = Some (q0, p0) -> j = i /\ q0 = q /\ p0 = p' \/ j <> i /\ nth_error (threads N w) j = Some (q0, p0)).
      { intros j q0 p0 Hj. cbn in Hj. destruct (Nat.eq_dec j i) as [->|Nj]; [left; rewrite (nth_replace_eq _ _ _ _ _ Ht) in Hj; injection Hj as <- <-; auto|right; split; auto; rewrite nth_replace_neq in Hj; auto]. }
      split.
      - cbn. rewrite S1. apply (i_defs _ _ I).
      - cbn. rewrite S1, S3, S5. apply (i_reg _ _ I).
      - intros c Fc. cbn in Fc. destruct (F c Fc) as [(F1 & F3)|(F1 & F2)].
        + destruct (same_spec w w2 S2) as (_ & _ & _ & EG). rewrite EG. apply (right_ext (good jst w c) _ w); auto. apply (i_cells _ _ I). auto.
        + destruct (same_spec w w2 S2) as (_ & _ & _ & EG). rewrite EG. apply (right_ext (G jst c) _ w'); [repeat split; auto|auto| |auto]. intros Gc. eapply held_good; eauto.
      - intros c Fc. cbn in *. rewrite S1. destruct (F c Fc) as [(F1 & _)|((_ & F1) & _)]; auto. apply (i_len _ _ I). auto.
      - intros j q0 p0 Hj. cbn [defs with_threads w2]. rewrite S1. destruct (TH _ _ _ Hj) as [(-> & -> & ->)|(Nj & Hj')]; eapply (i_wf _ _ I); eauto.
      - exists (fun j => if j =? i then kn' else kn j), (fun j => if j =? i then hs' else hs j). split; [|split].
        + intros j q0 p0 Hj. destruct (TH _ _ _ Hj) as [(-> & -> & ->)|(Nj & Hj')].
          * rewrite Nat.eqb_refl. exact A.
          * destruct (Nat.eqb_spec j i); [contradiction|]. destruct (H1 _ _ _ Hj') as (T1 & T2 & T3 & T4). split; [eapply safe_same; eauto|]. split; [intros c Hc; apply C; auto|]. split; auto.
            intros c s Hc. destruct (T4 c s Hc) as (U1 & U2 & U3 & U4). destruct (D c j n U2) as (D1 & D2 & D3). split; [destruct (same_spec w w2 S2) as (_ & _ & EE & _); rewrite EE; auto|]. split; auto. split; [intros; cbn; rewrite D2; auto|].
            intros Es. apply (right_ext (G jst c) _ w); auto.
        + intros j Hj. cbn in Hj. destruct (Nat.eqb_spec j i) as [->|Nj]; [rewrite (nth_replace_eq _ _ _ _ _ Ht) in Hj; discriminate|]. rewrite nth_replace_neq in Hj by auto. auto.
        + intros c j Hc. cbn in Hc. destruct (Nat.eqb_spec j i) as [->|Nj]; [apply B; auto|]. apply H3. eapply E; eauto.
      - intros pend Ej. destruct (i_start _ _ I pend Ej) as (X1 & X2). split.
        + intros i0. destruct (flag N w2 (KJ, i0)) eqn:EF; auto. cbn in EF. destruct (F _ EF) as [(F1 & _)|(([F1|F1] & _) & _)]; [rewrite X1 in F1; discriminate|rewrite (X2 _ _ _ Ht) in F1; discriminate|discriminate].
        + intros j q0 p0 Hj. destruct (TH _ _ _ Hj) as [(-> & -> & ->)|(Nj & Hj')]; eauto.
      - intros j q0 p0 b pend Ej Hj HJ. destruct (TH _ _ _ Hj) as [(-> & -> & ->)|(Nj & Hj')]; [eapply HP; eauto|eapply (i_pend _ _ I); eauto].
    Qed.

    Lemma same_refl : forall w, same w w.
    Proof. intros w. repeat split. Qed.
    Lemma in_fst : forall (c : cell) (s : lst) l, In (c, s) l -> In c (map fst l).
    Proof. intros c s l H. apply in_map_iff. exists (c, s). auto. Qed.
    Lemma tstep_inv : forall jst w i q p w' p', inv jst w -> nth_error (threads N w) i = Some (q, p) -> tstep N w i p = Some (w', p') -> inv jst (with_threads N w' (replace (threads N w) i (q, p'))).
    Proof.
      intros jst w i q p w' p' I Ht E. destruct p as [r|c k|c k|c k|c k|c d k|c k|c k|]; cbn [tstep] in E; try discriminate.
      - (* read the flag *)
        injection E as <- <-. apply (thread_moves jst w w i q (PFlag c k)); auto using same_refl. intros kn hs ((S0 & S1 & S2) & T2 & T3 & T4) HM. destruct (flag N w c) eqn:EF.
        + exists (c :: kn), hs. split; [|repeat split; auto]. split; auto. split; [intros c' [<-|Hc]; auto|]. split; auto.
        + exists kn, (see hs c). split; [|repeat split; auto].
          * split; auto. split; auto. assert (EM : map fst (see hs c) = map fst hs) by (destruct hs as [|[c' []] t]; cbn; auto; destruct (cell_eqb c c'); auto). split; [rewrite EM; auto|].
            intros c' s' Hc. destruct hs as [|[c0 []] t]; cbn [see] in Hc; auto. destruct (cell_eqb c c0) eqn:EC; auto. apply cell_eqb_eq in EC. subst c0. destruct Hc as [Hc|Hc]; [|apply T4; right; auto].
            injection Hc as <- <-. destruct (T4 c LUnk (or_introl eq_refl)) as (U1 & U2 & U3 & U4). split; auto. split; auto. split; [auto|discriminate].
          * intros c' Hc. assert (EM : map fst (see hs c) = map fst hs) by (destruct hs as [|[c0 []] t]; cbn; auto; destruct (cell_eqb c c0); auto). rewrite EM. auto.
      - (* lock *)
        destruct (mutex N w c) eqn:EM; [discriminate|]. injection E as <- <-. apply (thread_moves jst w _ i q (PLock c k)); auto; [repeat split|]. intros kn hs ((S0 & S1 & S2) & T2 & T3 & T4) HM.
        assert (NC : ~ In c (map fst hs)). { intros HC. apply in_map_iff in HC. destruct HC as ((c' & s') & Ec & Hc). cbn in Ec. subst c'. destruct (T4 _ _ Hc) as (_ & U & _). congruence. }
        exists kn, ((c, LUnk) :: hs). split; [|repeat split; auto].
        + split; auto. split; auto. split; [constructor; auto|]. intros c' s' [Hc|Hc].
          * injection Hc as <- <-. split; auto. split; [cbn; apply setc_eq|]. split; [intros X; destruct X; auto|discriminate].
          * destruct (T4 _ _ Hc) as (U1 & U2 & U3 & U4). split; auto. split; [cbn; rewrite setc_neq; auto; intros ->; congruence|]. split; auto.
        + intros c' Hc. cbn in Hc. destruct (cell_dec c' c) as [->|Nc]; [left; auto|right; rewrite setc_neq in Hc; auto].
        + cbn. rewrite setc_neq; auto. intros ->. congruence.
        + cbn. intros c' j Nj Hc. destruct (cell_dec c' c) as [->|Nc]; [rewrite setc_eq in Hc; congruence|rewrite setc_neq in Hc; auto].
      - (* unlock *)
        injection E as <- <-. apply (thread_moves jst w _ i q (PUnlock c k)); auto; [repeat split|]. intros kn hs (S0 & T2 & T3 & T4) HM. cbn [safe] in S0. destruct hs as [|[c' s'] t]; [contradiction|]. destruct S0 as (-> & S0).
        destruct (T4 c s' (or_introl eq_refl)) as (V1 & V2 & _). cbn in T3. apply NoDup_cons_iff in T3. destruct T3 as (NC & T3).
        exists kn, t. split; [|repeat split; auto].
        + split; auto. split; auto. split; auto. intros c' s0 Hc. destruct (T4 _ _ (or_intror Hc)) as (U1 & U2 & U3 & U4). split; auto. split; [cbn; rewrite setc_neq; auto; intros ->; apply NC; eapply in_fst; eauto|]. split; auto.
        + intros c' Hc. cbn in Hc. destruct (cell_dec c' c) as [->|Nc]; [rewrite setc_eq in Hc; discriminate|]. rewrite setc_neq in Hc by auto. destruct (HM _ Hc) as [X|X]; auto. cbn in X. congruence.
        + cbn. rewrite setc_neq; auto. intros ->. congruence.
        + cbn. intros c' j Nj Hc. destruct (cell_dec c' c) as [->|Nc]; [rewrite setc_eq in Hc; discriminate|rewrite setc_neq in Hc; auto].
      - (* begin writing *)
        injection E as <- <-. apply (thread_moves jst w _ i q (PBegin c k)); auto; [repeat split|]. intros kn hs (S0 & T2 & T3 & T4) HM. cbn [safe] in S0. destruct hs as [|[c' []] t]; try contradiction. destruct S0 as (-> & S0).
        destruct (T4 c LFresh (or_introl eq_refl)) as (V1 & V2 & V3 & _). cbn in T3. apply NoDup_cons_iff in T3. destruct T3 as (NC & T3). assert (V4 : flag N w c = false) by (apply V3; discriminate).
        exists kn, ((c, LTorn) :: t). split; [|repeat split; auto].
        + split; auto. split; auto. split; [constructor; auto|]. intros c' s0 [Hc|Hc].
          * injection Hc as <- <-. split; auto. split; auto. split; auto. discriminate.
          * destruct (T4 _ _ (or_intror Hc)) as (U1 & U2 & U3 & U4). split; auto. split; auto. split; auto. intros Es. apply (right_ext (G jst c') _ w); [repeat split|cbn; rewrite setc_neq; auto; intros ->; apply NC; eapply in_fst; eauto|auto|auto].
        + cbn. rewrite setc_neq; auto. intros ->. congruence.
        + intros c' Hc. left. split; auto. cbn. rewrite setc_neq; auto. intros ->. cbn in Hc. congruence.
      - (* end writing *)
        injection E as <- <-. apply (thread_moves jst w _ i q (PEnd c d k)); auto; [repeat split|]. intros kn hs (S0 & T2 & T3 & T4) HM. cbn [safe] in S0. destruct hs as [|[c' []] t]; try contradiction. destruct S0 as (-> & Sh & Sp & S0).
        destruct (T4 c LTorn (or_introl eq_refl)) as (V1 & V2 & V3 & _). cbn in T3. apply NoDup_cons_iff in T3. destruct T3 as (NC & T3). assert (V4 : flag N w c = false) by (apply V3; discriminate).
        exists kn, ((c, LWritten) :: t). split; [|repeat split; auto].
        + split; auto. split; auto. split; [constructor; auto|]. intros c' s0 [Hc|Hc].
          * injection Hc as <- <-. split; auto. split; auto. split; auto. intros _. exists d. cbn. rewrite setc_eq. auto.
          * destruct (T4 _ _ (or_intror Hc)) as (U1 & U2 & U3 & U4). split; auto. split; auto. split; auto. intros Es. apply (right_ext (G jst c') _ w); [repeat split|cbn; rewrite setc_neq; auto; intros ->; apply NC; eapply in_fst; eauto|auto|auto].
        + cbn. rewrite setc_neq; auto. intros ->. congruence.
        + intros c' Hc. left. split; auto. cbn. rewrite setc_neq; auto. intros ->. cbn in Hc. congruence.
      - (* set the flag *)
        injection E as <- <-. apply (thread_moves jst w _ i q (PSet c k)); auto; [repeat split|]. intros kn hs (S0 & T2 & T3 & T4) HM. cbn [safe] in S0. destruct hs as [|[c' []] t]; try contradiction. destruct S0 as (-> & S0).
        destruct (T4 c LWritten (or_introl eq_refl)) as (V1 & V2 & V3 & V5). cbn in T3. apply NoDup_cons_iff in T3. destruct T3 as (NC & T3). assert (V4 : flag N w c = false) by (apply V3; discriminate). specialize (V5 eq_refl).
        assert (FM : forall c', flag N w c' = true -> setc (flag N w) c true c' = true) by (intros c' Hc; unfold setc; destruct (cell_eqb c' c); auto).
        exists (c :: kn), ((c, LUnk) :: t). split; [|repeat split; auto].
        + split; auto. split; [intros c' [<-|Hc]; [cbn; apply setc_eq|cbn; apply FM; auto]|]. split; [constructor; auto|]. intros c' s0 [Hc|Hc].
          * injection Hc as <- <-. split; auto. split; auto. split; [intros X; destruct X; auto|discriminate].
          * destruct (T4 _ _ (or_intror Hc)) as (U1 & U2 & U3 & U4). split; auto. split; auto. split; [|intros Es; apply (right_ext (G jst c') _ w); auto; repeat split].
            intros Es. cbn. rewrite setc_neq; auto. intros ->. apply NC. eapply in_fst; eauto.
        + cbn. rewrite setc_neq; auto. intros ->. congruence.
        + intros c' Hc. cbn in Hc. destruct (cell_dec c' c) as [->|Nc]; [right; split; auto; apply (right_ext (G jst c) _ w); auto; repeat split|]. rewrite setc_neq in Hc by auto. left. auto.
      - (* read the datum *)
        injection E as <- <-. apply (thread_moves jst w w i q (PRead c k)); auto using same_refl. intros kn hs ((S0 & S1) & T2 & T3 & T4) HM. exists kn, hs. split; [|repeat split; auto].
        pose proof (i_cells _ _ I c (T2 _ S0)) as (d & C & Sh & Q). rewrite C. split; auto. apply S1; auto. intros Gc. apply Q.
        destruct c as [[|] n]; cbn in *; auto. destruct Gc as (Vo & b & Ej). split; auto. exists b, []. split; auto.
    Qed.

    (** ** Steps outside evaluation *)
    Lemma quiet_done : forall w i q p, quiet N w = true -> nth_error (threads N w) i = Some (q, p) -> exists r, p = PDone r.
    Proof. intros w i q p Q H. unfold quiet in Q. rewrite forallb_forall in Q. specialize (Q (q, p) (nth_error_In _ _ H)). cbn in Q. destruct p; try discriminate. eauto. Qed.
    Lemma quiet_mutex : forall jst w, inv jst w -> quiet N w = true -> forall c, mutex N w c = None.
    Proof.
      intros jst w I Q c. destruct (mutex N w c) as [i|] eqn:E; auto. exfalso. destruct (i_threads _ _ I) as (kn & hs & H1 & H2 & H3). specialize (H3 _ _ E).
      destruct (nth_error (threads N w) i) as [[q p]|] eqn:ET; [|rewrite (H2 _ ET) in H3; destruct H3]. destruct (quiet_done _ _ _ _ Q ET) as (r & ->). destruct (H1 _ _ _ ET) as ((S & _) & _). rewrite S in H3. destruct H3.
    Qed.
    (* without threads the invariant is about defs, registrations and cells *)
    Lemma calm : forall jst w, threads N w = [] -> (forall c, mutex N w c = None) ->
      (forall i e, nth_error (defs N w) i = Some e -> wf N (defs N w) e /\ (forall j, In j (cids N e) -> j < i) /\ (Vok -> no_if N e)) ->
      (Vok -> forall i e d, nth_error (defs N w) i = Some e -> In d (dvs N e (vals N w)) -> In i (reg N w d)) ->
      (forall c, flag N w c = true -> right (good jst w c) w c) -> (forall c, flag N w c = true -> snd c < length (defs N w)) ->
      (forall pend, jst = Some (false, pend) -> forall i, flag N w (KJ, i) = false) -> inv jst w.
    Proof.
      intros jst w ET EM H1 H2 H3 H4 H5. split; auto; try (intros i q p; rewrite ET; destruct i; discriminate).
      - exists (fun _ => []), (fun _ => []). split; [intros i q p; rewrite ET; destruct i; discriminate|]. split; auto. intros c i. rewrite EM. discriminate.
      - intros pend E. split; [eapply H5; eauto|]. intros i q p; rewrite ET; destruct i; discriminate.
    Qed.
    Lemma nth_lt : forall A (l : list A) i, i < length l -> exists a, nth_error l i = Some a.
    Proof. intros A l i H. apply nth_error_Some in H. destruct (nth_error l i); eauto; contradiction. Qed.
    Definition drop_st (jst : option (bool * list nat)) (d : nat) := match jst with Some (b, pend) => Some (b, drop d pend) | None => None end.
    Lemma in_drop : forall d x l, In x (drop d l) <-> In x l /\ x <> d.
    Proof. intros d x l. unfold drop. rewrite filter_In. destruct (Nat.eqb_spec x d); cbn; split; intros (H1 & H2); split; auto; congruence. Qed.
    (* a value changes and the caches of the variable are invalidated *)
    Lemma change_inv : forall jst w d v pr, inv jst w -> quiet N w = true -> inv (drop_st jst d) (with_vals N (invalidate N (with_threads N w []) d) (set1 (vals N w) d v) pr).
    Proof.
      intros jst w d v pr I Q. set (w' := with_vals N _ _ _).
      assert (FL : forall c, flag N w' c = true -> flag N w c = true /\ ~ In (snd c) (reg N w d)).
      { intros c. cbn. destruct (existsb (Nat.eqb (snd c)) (reg N w d)) eqn:E; [discriminate|]. intros H. split; auto. intros X. apply existsb_In in X. congruence. }
      assert (NI : forall i e, Vok -> nth_error (defs N w) i = Some e -> dvs N e (vals N w') = dvs N e (vals N w)) by (intros i e Vo E; apply dvs_no_if; apply (i_defs _ _ I i e E); auto).
      apply calm; auto.
      - apply (quiet_mutex jst w I Q).
      - apply (i_defs _ _ I).
      - intros Vo i e d' E. rewrite (NI i e) by auto. apply (i_reg _ _ I); auto.
      - intros c Fc. destruct (FL c Fc) as (F1 & F2). pose proof (i_cells _ _ I c F1) as (x & C & Sh & Sp). exists x. split; auto. split; auto. intros Gd.
        destruct (nth_lt _ _ _ (i_len _ _ I c F1)) as (e & E). destruct c as [kd i]. cbn [snd] in *. assert (Vo : Vok) by (destruct kd; cbn in Gd; [auto|apply Gd]).
        assert (ND : ~ In d (dvs N e (vals N w))) by (intros X; apply F2; eapply (i_reg _ _ I); eauto). destruct (i_defs _ _ I i e E) as (_ & _ & NF).
        assert (Gd' : good jst w (kd, i)).
        { destruct kd; cbn in *; auto. destruct Gd as (_ & b & pend & Ej & Hp). split; auto. destruct jst as [[b' pend']|]; cbn in Ej; [|discriminate]. injection Ej as <- <-. exists b', pend'. split; auto.
          intros e' E' d' Hd' X. assert (e' = e) by congruence. subst e'. apply (Hp e E d'); [rewrite (NI i e); auto|]. apply in_drop. split; auto. intros ->. auto. }
        rewrite <- (Sp Gd'). unfold wspec, spec. cbn [fst snd defs vals active w' with_vals invalidate with_flag with_threads]. rewrite E. destruct kd; f_equal; [apply pval_ext|apply pjac_ext]; auto.
        + intros d' Hd. change (In d' (dvs N e (vals N w'))) in Hd. rewrite (NI i e) in Hd by auto. unfold set1. cbn. destruct (Nat.eqb_spec d' d); [subst; contradiction|auto].
        + intros d' Hd. change (In d' (dvs N e (vals N w'))) in Hd. rewrite (NI i e) in Hd by auto. split; auto. unfold set1. cbn. destruct (Nat.eqb_spec d' d); [subst; contradiction|auto].
      - intros c Fc. apply (i_len _ _ I). apply FL. auto.
      - intros pend Ej i. destruct jst as [[b pend']|]; cbn in Ej; [|discriminate]. injection Ej as -> _. cbn. rewrite (proj1 (i_start _ _ I pend' eq_refl) i). destruct (existsb _ _); auto.
    Qed.
    (* a value changes behind the back of the caches: nothing is promised then *)
    Lemma set_inv : forall jst w d v, ~ Vok -> inv jst w -> quiet N w = true -> inv jst (with_vals N (with_threads N w []) (set1 (vals N w) d v) (prev N w)).
    Proof.
      intros jst w d v NV I Q. apply calm; auto.
      - apply (quiet_mutex jst w I Q).
      - apply (i_defs _ _ I).
      - intros Vo. contradiction.
      - intros c Fc. destruct (i_cells _ _ I c Fc) as (x & C & Sh & Sp). exists x. split; auto. split; auto. intros Gd. exfalso. destruct c as [[|] i]; cbn in Gd; [auto|destruct Gd; auto].
      - apply (i_len _ _ I).
      - intros pend Ej. apply (i_start _ _ I pend Ej).
    Qed.
    Lemma active_inv : forall jst w d b, inv jst w -> quiet N w = true -> inv (match jst with Some (true, pend) => Some (true, d :: pend) | _ => jst end) (with_active N (with_threads N w []) (set1 (active N w) d b)).
    Proof.
      intros jst w d b I Q. apply calm; auto.
      - apply (quiet_mutex jst w I Q).
      - apply (i_defs _ _ I).
      - apply (i_reg _ _ I).
      - intros c Fc. destruct (i_cells _ _ I c Fc) as (x & C & Sh & Sp). exists x. split; auto. split; auto. intros Gd. destruct (nth_lt _ _ _ (i_len _ _ I c Fc)) as (e & E). destruct c as [[|] i]; cbn [snd] in *.
        + rewrite <- (Sp Gd). reflexivity.
        + destruct Gd as (Vo & b' & pend & Ej & Hp). cbn in Hp. destruct (i_defs _ _ I i e E) as (_ & _ & NF). destruct jst as [[[|] pend']|]; [|exfalso|discriminate].
          * injection Ej as <- <-. assert (Gd' : good (Some (true, pend')) w (KJ, i)) by (split; auto; exists true, pend'; split; auto; intros e' E' d' Hd' X; apply (Hp e' E' d' Hd'); right; auto).
            rewrite <- (Sp Gd'). unfold wspec, spec. cbn. rewrite E. f_equal. apply pjac_ext; auto. intros d' Hd. split; auto. unfold set1. destruct (Nat.eqb_spec d' d) as [->|]; auto. exfalso. apply (Hp e E d Hd). left. auto.
          * destruct (i_start _ _ I pend' eq_refl) as (X & _). cbn in Fc. rewrite X in Fc. discriminate.
      - apply (i_len _ _ I).
      - intros pend Ej. destruct jst as [[[|] pend']|]; try discriminate. apply (i_start _ _ I pend' eq_refl).
    Qed.
    Lemma wf_app : forall ds x e, wf N ds e -> wf N (ds ++ x) e.
    Proof. induction e; cbn; intros H; auto; try (destruct H; auto). split; auto. rewrite nth_error_app1; auto. apply nth_error_Some. congruence. Qed.
    Lemma wf_cids : forall ds e, wf N ds e -> forall j, In j (cids N e) -> j < length ds.
    Proof. induction e; cbn; intros W j Hj; try contradiction; auto; try (destruct W; apply in_app_or in Hj; destruct Hj; auto). destruct W as (W1 & W2). destruct Hj as [<-|Hj]; auto. apply nth_error_Some. congruence. Qed.
    Lemma cache_inv : forall jst w e, inv jst w -> quiet N w = true -> wf N (defs N w) e -> (Vok -> no_if N e) -> inv jst (to_cache N (with_threads N w []) e).
    Proof.
      intros jst w e I Q W NF. assert (OLD : forall i, i < length (defs N w) -> nth_error (defs N w ++ [e]) i = nth_error (defs N w) i) by (intros; apply nth_error_app1; auto).
      assert (NTH : forall i e', nth_error (defs N w ++ [e]) i = Some e' -> nth_error (defs N w) i = Some e' \/ i = length (defs N w) /\ e' = e).
      { intros i e' H. destruct (Nat.lt_ge_cases i (length (defs N w))) as [L|L]; [rewrite OLD in H; auto|]. rewrite nth_error_app2 in H by auto. destruct (i - length (defs N w)) as [|n] eqn:En; cbn in H; [injection H as <-; right; split; auto; lia|destruct n; discriminate]. }
      apply calm; auto.
      - apply (quiet_mutex jst w I Q).
      - cbn. intros i e' H. destruct (NTH i e' H) as [H'|(-> & ->)].
        + destruct (i_defs _ _ I i e' H') as (A & B & C). split; [apply wf_app|]; auto.
        + split; [apply wf_app; auto|]. split; auto. apply wf_cids. auto.
      - cbn. intros Vo i e' d H Hd. destruct (NTH i e' H) as [H'|(-> & ->)].
        + pose proof (i_reg _ _ I Vo i e' d H' Hd) as X. destruct (existsb _ _); auto. apply in_or_app. auto.
        + apply existsb_In in Hd. rewrite Hd. apply in_or_app. right. left. auto.
      - intros c Fc. destruct (i_cells _ _ I c Fc) as (x & C & Sh & Sp). exists x. split; auto. split; auto. intros Gd. pose proof (i_len _ _ I c Fc) as L.
        assert (Gd' : good jst w c). { unfold good in *. destruct (fst c); auto. destruct Gd as (Vo & b & pend & Ej & Hp). split; auto. exists b, pend. split; auto. intros e' E'. apply Hp. cbn. rewrite OLD; auto. }
        rewrite <- (Sp Gd'). unfold wspec, spec. cbn. rewrite OLD by auto. auto.
      - cbn. intros c Fc. pose proof (i_len _ _ I c Fc). rewrite app_length. cbn. lia.
      - intros pend Ej. apply (i_start _ _ I pend Ej).
    Qed.
    Definition spawn_st (jst : option (bool * list nat)) (js : list job) := match jst with Some (b, pend) => Some (b || existsb (wants_J N) js, pend) | None => None end.
    Lemma good_spawn : forall jst js w c, good (spawn_st jst js) w c -> good jst w c.
    Proof. intros jst js w c. unfold good. destruct (fst c); auto. intros (Vo & b & pend & Ej & H). split; auto. destruct jst as [[b' pend']|]; cbn in Ej; [|discriminate]. injection Ej as <- <-. eauto. Qed.
    Lemma spawn_inv : forall jst w js, inv jst w -> quiet N w = true -> Forall (fun q => wf N (defs N w) (job_ex N q)) js -> (forall b pend, jst = Some (b, pend) -> existsb (wants_J N) js = true -> pend = []) ->
      inv (spawn_st jst js) (with_threads N (with_threads N w []) (map (fun q => (q, compile N (vals N w) (active N w) q)) js)).
    Proof.
      intros jst w js I Q F HP. rewrite Forall_forall in F. set (w' := with_threads N _ _).
      assert (NTH : forall i q p, nth_error (threads N w') i = Some (q, p) -> In q js /\ p = compile N (vals N w) (active N w) q).
      { intros i q p H. cbn in H. apply nth_error_In in H. apply in_map_iff in H. destruct H as (q' & E & H). injection E as -> <-. auto. }
      pose proof (quiet_mutex jst w I Q) as EM. split; auto.
      - apply (i_defs _ _ I).
      - apply (i_reg _ _ I).
      - intros c Fc. apply (right_ext (good jst w c) _ w); [repeat split|auto|apply good_spawn|apply (i_cells _ _ I); auto].
      - apply (i_len _ _ I).
      - intros i q p H. apply (NTH i q p) in H. apply F. apply H.
      - exists (fun _ => []), (fun _ => []). split; [|split; auto; intros c i; cbn; rewrite EM; discriminate].
        intros i q p H. apply NTH in H. destruct H as (Hq & ->). split; [|split; [intros c []|split; [constructor|intros c s []]]].
        assert (RK : forall i e, nth_error (defs N w) i = Some e -> forall j, In j (cids N e) -> j < i) by (intros; eapply (i_defs _ _ I); eauto). specialize (F q Hq).
        destruct q as [e|e]; cbn [compile job_ex] in *; unfold wspec, w'; cbn [defs vals active with_threads].
        + apply evalP_safe; auto.
          * intros i0 _ x [].
          * intros j Hj. split; [right; auto|]. cbn. eapply wf_cids; eauto.
          * intros kn v _ E. cbn. split; auto. intros Vo. cbn in Vo. rewrite (E Vo). auto.
          * intros kn _ E. cbn. split; auto. intros Vo. cbn in Vo. rewrite (E Vo). auto.
        + apply jacP_safe; auto.
          * intros (Vo & _). auto.
          * intros i0 _ x [].
          * intros c Hj. split; [left; auto|]. cbn. eapply wf_cids; eauto.
          * intros kn v _ E. cbn. split; auto. intros Vo. cbn in Vo. rewrite (E Vo). auto.
          * intros kn _ E. cbn. split; auto. intros Vo. cbn in Vo. rewrite (E Vo). auto.
      - intros pend Ej. destruct jst as [[b pend']|]; cbn in Ej; [|discriminate]. injection Ej as Eb _. apply orb_false_iff in Eb. destruct Eb as (-> & Eb). destruct (i_start _ _ I pend' eq_refl) as (A & B). split; auto.
        intros i q p H. apply NTH in H. destruct (wants_J N q) eqn:EW; auto. assert (existsb (wants_J N) js = true) by (apply existsb_exists; exists q; split; [apply H|auto]). congruence.
      - intros i q p b pend Ej H EW. apply NTH in H. destruct jst as [[b' pend']|]; cbn in Ej; [|discriminate]. injection Ej as _ <-. eapply HP; eauto. apply existsb_exists. exists q. split; [apply H|auto].
    Qed.
  End Inv.
End P.
