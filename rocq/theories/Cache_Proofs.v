(** * Cache expressions (proofs only) *)
From Coq Require Import Arith Lia List Bool.
From Verif Require Import Lib_Ring Cache_Model Cache_Spec.
Import ListNotations.

Section P.
  Context {K : Type} {R : CRing K}.
  Variable N : @nodes K.
  Notation cx := (cx N). Notation job := (job N). Notation world := (world N). Notation label := (label N).
  Notation prog := (@prog K). Notation datum := (@datum K).

  Lemma cell_eqb_refl : forall c : cell, cell_eqb c c = true.
  Proof. intros [[|] i]; unfold cell_eqb; cbn; apply Nat.eqb_refl. Qed.
  Lemma cell_eqb_eq : forall a b : cell, cell_eqb a b = true <-> a = b.
  Proof.
    intros [a i] [b j]. unfold cell_eqb. cbn. split.
    - intros H. apply andb_true_iff in H. destruct H as (H1 & H2). apply Nat.eqb_eq in H2. subst. destruct a, b; cbn in *; congruence.
    - intros H. injection H as -> ->. destruct b; cbn; apply Nat.eqb_refl.
  Qed.
  Lemma cell_eqb_neq : forall a b : cell, a <> b -> cell_eqb a b = false.
  Proof. intros a b H. destruct (cell_eqb a b) eqn:E; auto. apply cell_eqb_eq in E. contradiction. Qed.
  Lemma cell_dec : forall a b : cell, a = b \/ a <> b.
  Proof. intros a b. destruct (cell_eqb a b) eqn:E; [left; apply cell_eqb_eq; auto|right; intros ->; rewrite cell_eqb_refl in E; discriminate]. Qed.
  Lemma setc_eq : forall A (f : cell -> A) c a, setc f c a c = a.
  Proof. intros. unfold setc. rewrite cell_eqb_refl. auto. Qed.
  Lemma setc_neq : forall A (f : cell -> A) c a c', c' <> c -> setc f c a c' = f c'.
  Proof. intros. unfold setc. rewrite cell_eqb_neq; auto. Qed.

  Fixpoint cids (e : cx) : list nat := match e with CVar _ _ | CConst _ _ => [] | CUn _ _ a => cids a | CBin _ _ a b | CIf _ _ a b => cids a ++ cids b | CCache _ i e => i :: cids e end.

  (** ** Safe programs *)
  Inductive lst := LUnk | LFresh | LTorn | LWritten.
  Definition shape (c : cell) (d : datum) : Prop := match fst c, d with KV, inl _ | KJ, inr _ => True | _, _ => False end.
  Definition see (held : list (cell * lst)) (c : cell) : list (cell * lst) := match held with (c', LUnk) :: t => if cell_eqb c c' then (c', LFresh) :: t else held | _ => held end.
  Section Safe.
    Variables (T G : cell -> Prop) (sp : cell -> option datum) (Rok : Prop) (r : option datum).
    Fixpoint safe (known : list cell) (held : list (cell * lst)) (p : prog) : Prop :=
      match p with
      | PDone r' => held = [] /\ (Rok -> r' = r)
      | PFlag c k => T c /\ safe (c :: known) held (k true) /\ safe known (see held c) (k false)
      | PLock c k => T c /\ (forall x, In x held -> snd c < snd (fst x)) /\ safe known ((c, LUnk) :: held) k
      | PUnlock c k => match held with (c', _) :: t => c' = c /\ safe known t k | [] => False end
      | PBegin c k => match held with (c', LFresh) :: t => c' = c /\ safe known ((c, LTorn) :: t) k | _ => False end
      | PEnd c d k => match held with (c', LTorn) :: t => c' = c /\ shape c d /\ (G c -> sp c = Some d) /\ safe known ((c, LWritten) :: t) k | _ => False end
      | PSet c k => match held with (c', LWritten) :: t => c' = c /\ safe (c :: known) ((c, LUnk) :: t) k | _ => False end
      | PRead c k => In c known /\ forall d, shape c d -> (G c -> sp c = Some d) -> safe known held (k d)
      | PBad => False
      end.
  End Safe.
  Definition spec (ds : list cx) (s : nat -> vec K) (act : nat -> bool) (c : cell) : option datum :=
    match nth_error ds (snd c) with Some e => match fst c with KV => option_map inl (pval N e s) | KJ => option_map inr (pjac N e s act) end | None => None end.

  Section Compile.
    Variables (ds : list cx) (s : nat -> vec K) (act : nat -> bool) (Vok Jok : Prop) (T : cell -> Prop) (Rok : Prop) (r : option datum).
    Hypothesis JV : Jok -> Vok.
    Hypothesis rank : forall i e, nth_error ds i = Some e -> forall j, In j (cids e) -> j < i.
    Definition GG (c : cell) : Prop := match fst c with KV => Vok | KJ => Jok end.
    Notation sf := (safe T GG (spec ds s act) Rok r).

    Lemma see_other : forall held c, (forall x, In x held -> snd c < snd (fst x)) -> see held c = held.
    Proof. intros [|[c' []] t] c H; auto. cbn. rewrite cell_eqb_neq; auto. intros ->. specialize (H (c', LUnk) (or_introl eq_refl)). cbn in H. lia. Qed.
    Lemma see_same : forall held c, see ((c, LUnk) :: held) c = (c, LFresh) :: held.
    Proof. intros. cbn. rewrite cell_eqb_refl. auto. Qed.

    Lemma evalP_safe : forall e k h known held, wf N ds e -> (forall i, In i (cids e) -> forall x, In x held -> i < snd (fst x)) -> (forall i, In i (cids e) -> T (KV, i)) ->
      (forall known' v, incl known known' -> (Vok -> pval N e s = Some v) -> sf known' held (k v)) -> (forall known', incl known known' -> (Vok -> pval N e s = None) -> sf known' held h) -> sf known held (evalP N s e k h).
    Proof.
      induction e as [d|v|o a IH|o a IHa b IHb|c a IHa b IHb|i e IH]; intros k h known held W HR HT HK HH; cbn [evalP].
      - apply HK; [apply incl_refl|auto].
      - apply HK; [apply incl_refl|auto].
      - apply IH; auto.
        + intros kn x I E. destruct (val1 N o x) as [y|] eqn:V; [apply HK|apply HH]; auto; intros Q; cbn [pval]; rewrite (E Q); auto.
        + intros kn I E. apply HH; auto. intros Q. cbn [pval]. rewrite (E Q); auto.
      - cbn [wf] in W. destruct W as (Wa & Wb). cbn [cids] in *. apply IHa; auto; [intros; apply HR; auto; apply in_or_app; auto|intros; apply HT; apply in_or_app; auto| |].
        + intros kn x I E. apply IHb; auto; [intros; apply HR; auto; apply in_or_app; auto|intros; apply HT; apply in_or_app; auto| |].
          * intros kn' y I' E'. destruct (val2 N o x y) as [z|] eqn:V; [apply HK|apply HH]; eauto using incl_tran; intros Q; cbn [pval]; rewrite (E Q), (E' Q); auto.
          * intros kn' I' E'. apply HH; eauto using incl_tran. intros Q. cbn [pval]. rewrite (E Q), (E' Q); auto.
        + intros kn I E. apply HH; auto. intros Q. cbn [pval]. rewrite (E Q); auto.
      - cbn [wf] in W. destruct W as (Wa & Wb). cbn [cids pval] in *. destruct (test N c s).
        + apply IHa; auto; intros; [apply HR|apply HT]; auto; apply in_or_app; auto.
        + apply IHb; auto; intros; [apply HR|apply HT]; auto; apply in_or_app; auto.
      - cbn [wf] in W. destruct W as (D & W). cbn [cids pval] in *. set (c := (KV, i)).
        assert (Hc : forall x, In x held -> snd c < snd (fst x)) by (intros x Hx; apply (HR i); auto; left; auto).
        assert (Sp : forall v, Vok -> spec ds s act c = Some (inl v) -> pval N e s = Some v).
        { intros v Q E. unfold spec in E. cbn in E. rewrite D in E. destruct (pval N e s); cbn in E; congruence. }
        assert (Ret : forall kn, incl known kn -> In c kn -> sf kn held (PRead c (fun d => match d with inl v => k v | inr _ => PBad end))).
        { intros kn I C. cbn [safe]. split; auto. intros d Sh E. destruct d as [v|j]; [|destruct Sh]. apply HK; auto. }
        cbn [safe]. split; [apply HT; left; auto|]. split; [apply Ret; [apply incl_tl, incl_refl|left; auto]|]. rewrite see_other by auto.
        split; [apply HT; left; auto|]. split; [auto|]. split; [apply HT; left; auto|]. split; [split; auto; apply Ret; [apply incl_tl, incl_refl|left; auto]|]. rewrite see_same.
        apply IH; auto.
        + intros j Hj x [<-|Hx]; [cbn; eapply rank; eauto|apply HR; auto; right; auto].
        + intros j Hj. apply HT. right. auto.
        + intros kn v I E. cbn [safe]. split; auto. split; auto. split; [exact Logic.I|]. split; [intros Q; unfold spec; cbn; rewrite D, (E Q); auto|]. split; auto. split; auto. split; [left; auto|].
          intros d Sh E'. destruct d as [v'|j]; [|destruct Sh]. apply HK; [apply incl_tl; auto|]. intros Q. apply (Sp v' Q). auto.
        + intros kn I E. cbn [safe]. split; auto.
    Qed.
    Lemma jacP_safe : forall e k h known held, wf N ds e -> (forall i, In i (cids e) -> forall x, In x held -> i < snd (fst x)) -> (forall c, In (snd c) (cids e) -> T c) ->
      (forall known' j, incl known known' -> (Jok -> pjac N e s act = Some j) -> sf known' held (k j)) -> (forall known', incl known known' -> (Jok -> pjac N e s act = None) -> sf known' held h) -> sf known held (jacP N s act e k h).
    Proof.
      induction e as [d|v|o a IH|o a IHa b IHb|c a IHa b IHb|i e IH]; intros k h known held W HR HT HK HH; cbn [jacP].
      - apply HK; [apply incl_refl|auto].
      - apply HK; [apply incl_refl|auto].
      - cbn [wf cids pjac] in *. apply evalP_safe; auto.
        + intros kn x I E. apply IH; auto.
          * intros kn' j I' E'. apply HK; eauto using incl_tran. intros Q. rewrite (E (JV Q)), (E' Q). auto.
          * intros kn' I' E'. apply HH; eauto using incl_tran. intros Q. rewrite (E (JV Q)), (E' Q). auto.
        + intros kn I E. apply HH; auto. intros Q. rewrite (E (JV Q)). auto.
      - cbn [wf cids pjac] in *. destruct W as (Wa & Wb).
        assert (RA : forall i, In i (cids a) -> forall x, In x held -> i < snd (fst x)) by (intros; apply HR; auto; apply in_or_app; auto).
        assert (RB : forall i, In i (cids b) -> forall x, In x held -> i < snd (fst x)) by (intros; apply HR; auto; apply in_or_app; auto).
        assert (TA : forall c, In (snd c) (cids a) -> T c) by (intros; apply HT; apply in_or_app; auto). assert (TB : forall c, In (snd c) (cids b) -> T c) by (intros; apply HT; apply in_or_app; auto).
        apply evalP_safe; auto.
        + intros k1 x I1 E1. apply evalP_safe; auto.
          * intros k2 y I2 E2. apply IHa; auto.
            -- intros k3 ja I3 E3. apply IHb; auto.
               ++ intros k4 jb I4 E4. apply HK; [eauto 6 using incl_tran|]. intros Q. rewrite (E1 (JV Q)), (E2 (JV Q)), (E3 Q), (E4 Q). auto.
               ++ intros k4 I4 E4. apply HH; [eauto 6 using incl_tran|]. intros Q. rewrite (E1 (JV Q)), (E2 (JV Q)), (E3 Q), (E4 Q). auto.
            -- intros k3 I3 E3. apply HH; [eauto 6 using incl_tran|]. intros Q. rewrite (E1 (JV Q)), (E2 (JV Q)), (E3 Q). auto.
          * intros k2 I2 E2. apply HH; [eauto 6 using incl_tran|]. intros Q. rewrite (E1 (JV Q)), (E2 (JV Q)). auto.
        + intros k1 I1 E1. apply HH; auto. intros Q. rewrite (E1 (JV Q)). auto.
      - cbn [wf] in W. destruct W as (Wa & Wb). cbn [cids pjac] in *. destruct (test N c s).
        + apply IHa; auto; intros; [apply HR|apply HT]; auto; apply in_or_app; auto.
        + apply IHb; auto; intros; [apply HR|apply HT]; auto; apply in_or_app; auto.
      - cbn [wf] in W. destruct W as (D & W). cbn [cids pjac] in *. set (c := (KJ, i)).
        assert (Hc : forall x, In x held -> snd c < snd (fst x)) by (intros x Hx; apply (HR i); auto; left; auto).
        assert (Sp : forall v, Jok -> spec ds s act c = Some (inr v) -> pjac N e s act = Some v).
        { intros v Q E. unfold spec in E. cbn in E. rewrite D in E. destruct (pjac N e s act); cbn in E; congruence. }
        assert (Ret : forall kn, incl known kn -> In c kn -> sf kn held (PRead c (fun d => match d with inr v => k v | inl _ => PBad end))).
        { intros kn I C. cbn [safe]. split; auto. intros d Sh E. destruct d as [v|j]; [destruct Sh|]. apply HK; auto. }
        cbn [safe]. split; [apply HT; left; auto|]. split; [apply Ret; [apply incl_tl, incl_refl|left; auto]|]. rewrite see_other by auto.
        split; [apply HT; left; auto|]. split; [auto|]. split; [apply HT; left; auto|]. split; [split; auto; apply Ret; [apply incl_tl, incl_refl|left; auto]|]. rewrite see_same. split; auto.
        apply IH; auto.
        + intros j Hj x [<-|Hx]; [cbn; eapply rank; eauto|apply HR; auto; right; auto].
        + intros c' Hj. apply HT. right. auto.
        + intros kn v I E. cbn [safe]. split; auto. split; [exact Logic.I|]. split; [intros Q; unfold spec; cbn; rewrite D, (E Q); auto|]. split; auto. split; auto. split; [left; auto|].
          intros d Sh E'. destruct d as [v'|j]; [destruct Sh|]. apply HK; [apply incl_tl; auto|]. intros Q. apply (Sp j Q). auto.
        + intros kn I E. cbn [safe]. split; auto.
    Qed.
  End Compile.
End P.
