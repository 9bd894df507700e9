(** * Coordinate frames as objects: proofs *)
From Coq Require Import Arith Lia List Bool.
From Verif Require Import Lib_Res Scalar_Model Geo_Model Empty_Model Chain_Model Frames_Model Frames_Spec.
Import ListNotations.

Lemma chain_det : forall h i l c, chain h i l c -> forall l' c', chain h i l' c' -> l = l' /\ c = c'.
Proof.
  induction 1 as [i o E P|i o p l c E P H IH]; intros l' c' H'.
  - inversion H'; subst; [|congruence]. split; congruence.
  - inversion H' as [? o' E' P'|? o' p' l2 c2 E' P' H2]; subst; [congruence|]. assert (o' = o) by congruence. subst o'. assert (p' = p) by congruence. subst p'.
    destruct (IH _ _ H2). split; congruence.
Qed.
Lemma chain_here : forall h i l c, chain h i l c -> exists o, nth_error h i = Some o. Proof. destruct 1; eauto. Qed.
Lemma chain_incl : forall h i l c, chain h i l c -> forall k, In k l -> k < length h.
Proof. induction 1 as [i o E P|i o p l c E P H IH]; intros k [<-|K]; try contradiction; try (apply nth_error_Some; congruence). auto. Qed.
(* below an address of the chain there is the rest of the chain *)
Lemma chain_tail : forall h i l c, chain h i l c -> forall k, In k l -> exists l' c', chain h k l' c' /\ length l' <= length l.
Proof.
  induction 1 as [i o E P|i o p l c E P H IH]; intros k [<-|K]; try contradiction.
  - eexists; eexists; split; [eapply chain_root; eauto|]. cbn; lia.
  - eexists; eexists; split; [eapply chain_up; eauto|]. cbn; lia.
  - destruct (IH k K) as (l' & c' & Hc & L). exists l', c'. split; auto. cbn; lia.
Qed.
Lemma chain_nodup : forall h i l c, chain h i l c -> NoDup l.
Proof.
  induction 1 as [i o E P|i o p l c E P H IH].
  - constructor; [intros []|constructor].
  - constructor; auto. intros K. destruct (chain_tail _ _ _ _ H i K) as (l' & c' & Hc & L).
    destruct (chain_det _ _ _ _ Hc (i :: l) (o_local o :: c)) as [-> _]; [eapply chain_up; eauto|]. cbn in L; lia.
Qed.
Lemma chain_len : forall h i l c, chain h i l c -> length l <= length h.
Proof.
  intros h i l c H. assert (N := chain_nodup _ _ _ _ H). assert (I := chain_incl _ _ _ _ H).
  rewrite <- (seq_length (length h) 0). apply NoDup_incl_length; auto. intros k K. apply in_seq. specialize (I k K). lia.
Qed.

(* the same frames, whatever they keep *)
Definition same (h h' : list fobj) : Prop := length h = length h' /\ forall i o, nth_error h i = Some o -> exists g, nth_error h' i = Some (mkF (o_parent o) (o_local o) g).
Lemma same_refl : forall h, same h h. Proof. intros h. split; auto. intros i [p l g] H. exists g. exact H. Qed.
Lemma same_trans : forall a b c, same a b -> same b c -> same a c.
Proof. intros a b c [L1 S1] [L2 S2]. split; [congruence|]. intros i o H. destruct (S1 i o H) as [g G]. destruct (S2 i _ G) as [g' G']. exists g'. exact G'. Qed.
Lemma same_chain : forall h h', same h h' -> forall i l c, chain h i l c -> chain h' i l c.
Proof.
  intros h h' [L S0]. induction 1 as [i o E P|i o p l c E P H IH]; destruct (S0 i o E) as [g G].
  - change (o_local o) with (o_local (mkF (o_parent o) (o_local o) g)). apply chain_root; auto.
  - change (o_local o) with (o_local (mkF (o_parent o) (o_local o) g)). eapply chain_up; eauto.
Qed.

(* what frames keep belongs to their chain *)
Definition kept (h : list fobj) : Prop := forall i l c o, chain h i l c -> nth_error h i = Some o ->
  (o_parent o = None -> o_global o = o_local o) /\ (fR (o_global o) = HNull \/ fR (o_global o) = getR c) /\ forall q, sel q (o_global o) = HNull \/ sel q (o_global o) = quantity q c.
(* a computation that keeps this and returns x *)
Definition gives {A} (m : M A) (h : list fobj) (x : A) : Prop := exists h', m h = Ok (x, h') /\ same h h' /\ kept h'.
Lemma thenM_ok : forall A B (m : M A) (f : A -> M B) h x y, gives m h x -> (forall h', same h h' -> kept h' -> gives (f x) h' y) -> gives (thenM m f) h y.
Proof. intros A B m f h x y (h' & E & S & K) F. destruct (F h' S K) as (h2 & E2 & S2 & K2). exists h2. unfold thenM. rewrite E. cbn. split; auto. split; auto. eapply same_trans; eauto. Qed.

Lemma quantity_root : forall q f, quantity q [f] = sel q f. Proof. destruct q; reflexivity. Qed.
Lemma sel_put : forall q q' x f, sel q' (put q x f) = (match q, q' with QP, QP | QOmega, QOmega | QAlpha, QAlpha | QV, QV | QA, QA => x | _, _ => sel q' f end).
Proof. destruct q, q'; reflexivity. Qed.
Lemma put_R : forall q x f, fR (put q x f) = fR f. Proof. destruct q; reflexivity. Qed.

Lemma keep_same : forall A h i o (pt : A -> frame -> frame) x, nth_error h i = Some o -> same h (upd h i (mkF (o_parent o) (o_local o) (pt x (o_global o)))).
Proof.
  intros A h i o pt x E. assert (Li : i < length h) by (apply nth_error_Some; congruence). split; [rewrite upd_length; auto|]. intros k y Y. destruct (Nat.eq_dec i k) as [<-|N].
  - rewrite nth_error_upd_same by auto. assert (y = o) by congruence. subst. eexists; reflexivity.
  - rewrite nth_error_upd_other by auto. destruct y as [p l g]. exists g. exact Y.
Qed.
Lemma same_back : forall h h', same h h' -> same h' h.
Proof.
  intros h h' [L S0]. split; auto. intros i o H. destruct (nth_error h i) as [y|] eqn:E.
  - destruct (S0 i y E) as [g G]. rewrite H in G. injection G as ->. exists (o_global y). destruct y; reflexivity.
  - exfalso. apply nth_error_None in E. assert (i < length h') by (apply nth_error_Some; congruence). lia.
Qed.
Lemma keep_vector : forall h i l c o q, kept h -> chain h i l c -> nth_error h i = Some o -> o_parent o <> None -> gives (keep i (put q) (quantity q c)) h (quantity q c).
Proof.
  intros h i l c o q K C E P. unfold keep, gives. rewrite E. eexists. split; [reflexivity|]. assert (S0 := keep_same _ h i o (put q) (quantity q c) E). split; [exact S0|].
  intros k lk ck y Ck Y. apply (same_chain _ _ (same_back _ _ S0)) in Ck. assert (Li : i < length h) by (apply nth_error_Some; congruence).
  destruct (Nat.eq_dec i k) as [<-|N].
  - rewrite nth_error_upd_same in Y by auto. injection Y as <-. cbn [o_parent o_local o_global]. destruct (chain_det _ _ _ _ C _ _ Ck) as [<- <-]. destruct (K i l c o C E) as (_ & KR & KE).
    split; [intros; contradiction|]. rewrite put_R. split; [exact KR|]. intros q'. rewrite sel_put. destruct q, q'; auto.
  - rewrite nth_error_upd_other in Y by auto. exact (K k lk ck y Ck Y).
Qed.
Lemma keep_rotation : forall h i l c o, kept h -> chain h i l c -> nth_error h i = Some o -> o_parent o <> None -> gives (keep i putR (getR c)) h (getR c).
Proof.
  intros h i l c o K C E P. unfold keep, gives. rewrite E. eexists. split; [reflexivity|]. assert (S0 := keep_same _ h i o putR (getR c) E). split; [exact S0|].
  intros k lk ck y Ck Y. apply (same_chain _ _ (same_back _ _ S0)) in Ck. assert (Li : i < length h) by (apply nth_error_Some; congruence).
  destruct (Nat.eq_dec i k) as [<-|N].
  - rewrite nth_error_upd_same in Y by auto. injection Y as <-. cbn [o_parent o_local o_global]. destruct (chain_det _ _ _ _ C _ _ Ck) as [<- <-]. destruct (K i l c o C E) as (_ & KR & KE).
    split; [intros; contradiction|]. split; [right; reflexivity|]. intros q'. replace (sel q' (putR (getR c) (o_global o))) with (sel q' (o_global o)) by (destruct q'; reflexivity). apply KE.
  - rewrite nth_error_upd_other in Y by auto. exact (K k lk ck y Ck Y).
Qed.

Lemma isEmpty_null : forall A (a : handle A), isEmpty a = true -> a = HNull. Proof. destruct a; cbn; congruence. Qed.
Lemma chain_nonempty : forall h i l c, chain h i l c -> c <> []. Proof. destruct 1; discriminate. Qed.
Lemma same_get : forall h h' i o, same h h' -> nth_error h i = Some o -> exists g, nth_error h' i = Some (mkF (o_parent o) (o_local o) g).
Proof. intros h h' i o [_ S0]. apply S0. Qed.

Lemma getRG_gives : forall l c fuel h i, chain h i l c -> length l <= S fuel -> kept h -> gives (getRG fuel i) h (getR c).
Proof.
  induction l as [|i0 l IH]; intros c fuel h i C F K; [inversion C|]. destruct (chain_here _ _ _ _ C) as [o E]. destruct (K _ _ _ _ C E) as (K0 & KR & KE).
  unfold gives. inversion C as [? o' E' P'|? o' p l2 c2 E' P' C2]; subst; assert (o' = o) by congruence; subst o'.
  - destruct fuel; cbn [getRG]; rewrite E, P'; eexists; (split; [|split; [apply same_refl|exact K]]); rewrite (K0 P'); reflexivity.
  - destruct (isEmpty (fR (o_global o))) eqn:Em.
    + destruct fuel as [|f]; [cbn in F; destruct l; [inversion C2|cbn in F; lia]|]. cbn [getRG]. rewrite E, P', Em.
      change (gives (let! r := getRG f p in keep i0 putR (r_mul 0 r (fR (o_local o)))) h (getR (o_local o :: c2))).
      eapply thenM_ok; [eapply IH; eauto; cbn in F; lia|]. intros h' S0 K'.
      destruct (same_get _ _ _ _ S0 E) as [g G].
      replace (r_mul 0 (getR c2) (fR (o_local o))) with (getR (o_local o :: c2)) by (destruct c2 as [|x y]; [exfalso; eapply chain_nonempty; eauto|reflexivity]).
      eapply keep_rotation; eauto; [eapply same_chain; eauto|cbn; congruence].
    + destruct KR as [Z|Z]; [rewrite Z in Em; discriminate|]. destruct fuel; cbn [getRG]; rewrite E, P', Em, Z; eexists; (split; [reflexivity|split; [apply same_refl|exact K]]).
Qed.

Lemma getEG_gives : forall l c q fuel h i, chain h i l c -> length l <= S fuel -> kept h -> gives (getEG fuel q i) h (quantity q c).
Proof.
  induction l as [|i0 l IH]; intros c q fuel h i C F K; [inversion C|]. destruct (chain_here _ _ _ _ C) as [o E]. destruct (K _ _ _ _ C E) as (K0 & KR & KE).
  inversion C as [? o' E' P'|? o' p l2 c2 E' P' C2]; subst; assert (o' = o) by congruence; subst o'.
  - destruct fuel; unfold gives; cbn [getEG]; rewrite E, P'; eexists; (split; [|split; [apply same_refl|exact K]]); rewrite (K0 P'), quantity_root; reflexivity.
  - destruct (isEmpty (sel q (o_global o))) eqn:Em.
    + destruct fuel as [|f]; [cbn in F; destruct l; [inversion C2|cbn in F; lia]|]. assert (F2 : length l <= S f) by (cbn in F; lia).
      assert (GE : forall h' q', same h h' -> kept h' -> gives (getEG f q' p) h' (quantity q' c2)) by (intros h' q' S0 K'; eapply IH; eauto; eapply same_chain; eauto).
      assert (GR : forall h', same h h' -> kept h' -> gives (getRG f p) h' (getR c2)) by (intros h' S0 K'; eapply getRG_gives; eauto; eapply same_chain; eauto).
      assert (GK : forall h' x, same h h' -> kept h' -> x = quantity q (o_local o :: c2) -> gives (keep i0 (put q) x) h' (quantity q (o_local o :: c2))).
      { intros h' x S0 K' ->. destruct (same_get _ _ _ _ S0 E) as [g G]. eapply keep_vector; eauto; [eapply same_chain; eauto|cbn; congruence]. }
      assert (N : c2 <> []) by (eapply chain_nonempty; eauto). destruct c2 as [|x y]; [congruence|]. clear N.
      unfold gives. cbn [getEG]. rewrite E, P', Em.
      destruct q; cbv zeta;
        match goal with |- exists h', ?m h = Ok (?v, h') /\ _ => change (gives m h v) end;
        assert (S1 := same_refl h); assert (K1 := K).
      all: repeat (eapply thenM_ok; [first [apply GE; assumption|apply GR; assumption]|]; let h2 := fresh "h" in let S2 := fresh "S" in let K2 := fresh "K" in intros h2 S2 K2;
             let S3 := fresh "S" in assert (S3 := same_trans _ _ _ S1 S2); clear S1 S2 K1; rename S3 into S1; rename K2 into K1).
      all: apply GK; auto.
    + destruct (KE q) as [Z|Z]; [rewrite Z in Em; discriminate|]. destruct fuel; unfold gives; cbn [getEG]; rewrite E, P', Em, Z; eexists; (split; [reflexivity|split; [apply same_refl|exact K]]).
Qed.
