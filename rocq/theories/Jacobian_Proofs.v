(** * Lemmas about the Jacobian container models *)
From Coq Require Import Arith Lia List ZArith NArith Bool Ring Sorted Permutation.
From Verif Require Import Lib_Ring Lib_Res MatrixStack_Model MatrixStack_Spec MatrixStack_Proofs
  DesignVar_Base Jacobian_Model Jacobian_Spec.
Import ListNotations.

Section Proofs.
Context {K : Type} {R : CRing K}.
Add Ring Kring : (@kring K R).
Notation dvar := (dvar K).

Definition cop_of (e : @event K) : @cop K :=
  match e with
  | EApply (FMat r c M) => CApply (mkD r c M)
  | EApply (FScal a) => CApplyS a
  | EEnd => CEnd
  | EAdd d r J => CAdd d (mkD r (dv_dim d) J)
  | EAddId d => CAddId d
  end.

Definition ceq (n : nat) (c c' : @contribution K) : Prop :=
  fst c = fst c' /\ meq n (dv_dim (fst c)) (snd c) (snd c').

Lemma total_app : forall cs cs' d i j, total (cs ++ cs') d i j = kadd (total cs d i j) (total cs' d i j).
Proof. intros; unfold total. rewrite filter_app, lsum_app. reflexivity. Qed.

Lemma total_cons_same : forall c cs d i j, dv_id (fst c) = dv_id d ->
  total (c :: cs) d i j = kadd (snd c i j) (total cs d i j).
Proof. intros; unfold total; cbn [filter]. rewrite H, Nat.eqb_refl. reflexivity. Qed.
Lemma total_cons_other : forall c cs d i j, dv_id (fst c) <> dv_id d ->
  total (c :: cs) d i j = total cs d i j.
Proof. intros; unfold total; cbn [filter]. rewrite (proj2 (Nat.eqb_neq _ _)); auto. Qed.
Lemma total_notin : forall cs d i j, (forall c, In c cs -> dv_id (fst c) <> dv_id d) -> total cs d i j = k0.
Proof.
  induction cs as [|c cs IH]; intros; [reflexivity|]. rewrite total_cons_other.
  - apply IH; intros; apply H; right; auto.
  - apply H; left; auto.
Qed.

(** ** generic simulation *)
Section Generic.
Variable store : Type.
Variable addJ : store -> dvar -> @dmat K -> res store.
Variable n al : nat.
Variable D : list dvar.
Hypothesis Hal : 0 < al.
Variable P : list (@contribution K) -> store -> Prop.
Hypothesis HwfD : wf_dvs D.
Hypothesis P_add : forall cs st d J C, P cs st -> In d D -> dv_active d = true ->
  d_rows J = n -> d_cols J = dv_dim d -> meq n (dv_dim d) (d_at J) C ->
  exists st', addJ st d J = Ok st' /\ P (cs ++ [(d, C)]) st'.
Hypothesis P_inactive : forall cs st d C, P cs st -> In d D -> dv_active d = false -> P (cs ++ [(d, C)]) st.

Lemma generic_run : forall fs evs cs fs', cruns n al fs evs cs fs' ->
  incl (event_dvs evs) D ->
  forall c cs0, Inv n al (jc_stack c) fs -> P cs0 (jc_store c) ->
  exists c', jc_run store addJ al c (map cop_of evs) = Ok c' /\
    Inv n al (jc_stack c') fs' /\ P (cs0 ++ cs) (jc_store c').
Proof.
  intros fs evs cs fs' H. induction H; intros HD c cs0 HI HP.
  - exists c. rewrite app_nil_r. auto.
  - (* apply *)
    destruct (step_push n al (jc_stack c) fs f Hal HI H H0) as (s1 & E1 & I1 & _).
    destruct (IHcruns HD (mkJC s1 (jc_store c)) cs0 I1 HP) as (c' & E' & I' & P').
    exists c'. split; auto. cbn [map jc_run]. 
    destruct f as [r m M|a]; cbn [cop_of jc_step op_of ms_step] in *.
    + unfold jc_apply.
      assert (Hb : match ms_headers (jc_stack c) with [] => negb (ms_rows (jc_stack c) =? d_rows (mkD r m M)) | _ => false end = false).
      { destruct HI as (Hr & Hl & _). destruct (ms_headers (jc_stack c)); auto.
        destruct fs; [|contradiction]. cbn [prod_cols] in H. cbn [d_rows]. rewrite Hr, H, Nat.eqb_refl. reflexivity. }
      rewrite Hb, E1. cbn [bind]. exact E'.
    + unfold jc_apply_scalar. rewrite E1. cbn [bind]. exact E'.
  - destruct (step_pop n al (jc_stack c) f fs HI) as (s1 & E1 & I1 & _).
    destruct (IHcruns HD (mkJC s1 (jc_store c)) cs0 I1 HP) as (c' & E' & I' & P').
    exists c'. split; auto. cbn [map jc_run cop_of jc_step]. unfold jc_end.
    cbn [ms_step] in E1. rewrite E1. cbn [bind]. exact E'.
  - (* add *)
    assert (Hd : In d D) by (apply HD; cbn; left; reflexivity).
    assert (HD' : incl (event_dvs evs) D) by (intros x Hx; apply HD; cbn; right; exact Hx).
    cbn [map jc_run cop_of jc_step]. unfold jc_add. cbn [d_cols d_rows].
    rewrite Nat.eqb_refl. cbn [negb].
    destruct (dv_active d) eqn:Ha.
    + cbn [negb]. destruct HwfD as (_ & W2 & _). pose proof (W2 d Hd Ha) as Hb.
      rewrite (proj2 (Z.ltb_ge _ _)) by lia.
      destruct (ms_headers (jc_stack c)) as [|h hs] eqn:Hh.
      * destruct HI as (Hr & Hl & HI2). rewrite Hh in Hl. destruct fs; [|contradiction].
        cbn [prod_cols] in H. subst r. rewrite Hr, Nat.eqb_refl. cbn [negb].
        destruct (P_add cs0 (jc_store c) d (mkD n (dv_dim d) J) (mmul n (prod_mat n []) J) HP Hd Ha) as (st & E & HP1); auto.
        { cbn [d_at prod_mat]. apply meq_sym. apply mmul_id_l. }
        rewrite E. cbn [bind].
        destruct (IHcruns HD' (mkJC (jc_stack c) st) (cs0 ++ [(d, mmul n (prod_mat n []) J)])) as (c' & E' & I' & P'); auto.
        { unfold Inv; cbn [jc_stack]. rewrite Hh. cbn. rewrite Hh in HI2. intuition. }
        exists c'. split; auto. split; auto. rewrite <- app_assoc in P'. exact P'.
      * destruct fs as [|f fs]. { destruct HI as (_ & Hl & _). rewrite Hh in Hl. contradiction. }
        destruct (Inv_top n al (jc_stack c) f fs HI) as (v & V1 & V2 & V3 & V4).
        rewrite V1. cbn [bind]. rewrite V3, <- H, Nat.eqb_refl. cbn [negb].
        destruct (P_add cs0 (jc_store c) d (dmul v (mkD r (dv_dim d) J)) (mmul r (prod_mat n (f :: fs)) J) HP Hd Ha) as (st & E & HP1); auto.
        { cbn [d_at dmul]. rewrite V3, <- H. apply mmul_ext; [|apply meq_refl].
          rewrite H, <- V3. exact V4. }
        rewrite E. cbn [bind].
        destruct (IHcruns HD' (mkJC (jc_stack c) st) (cs0 ++ [(d, mmul r (prod_mat n (f :: fs)) J)])) as (c' & E' & I' & P'); auto.
        exists c'. split; auto. split; auto. rewrite <- app_assoc in P'. exact P'.
    + cbn [negb bind].
      destruct (IHcruns HD' c (cs0 ++ [(d, mmul r (prod_mat n fs) J)])) as (c' & E' & I' & P'); auto.
      exists c'. split; auto. split; auto. rewrite <- app_assoc in P'. exact P'.
  - (* add identity *)
    assert (Hd : In d D) by (apply HD; cbn; left; reflexivity).
    assert (HD' : incl (event_dvs evs) D) by (intros x Hx; apply HD; cbn; right; exact Hx).
    cbn [map jc_run cop_of jc_step]. unfold jc_add_id.
    destruct (dv_active d) eqn:Ha.
    + cbn [negb]. destruct HwfD as (_ & W2 & _). pose proof (W2 d Hd Ha) as Hb.
      rewrite (proj2 (Z.ltb_ge _ _)) by lia.
      destruct (ms_headers (jc_stack c)) as [|h hs] eqn:Hh.
      * destruct HI as (Hr & Hl & HI2). rewrite Hh in Hl. destruct fs; [|contradiction].
        cbn [prod_cols] in H. rewrite Hr.
        destruct (P_add cs0 (jc_store c) d (didentity n (dv_dim d)) (prod_mat n []) HP Hd Ha) as (st & E & HP1); auto.
        { cbn. apply meq_refl. }
        rewrite E. cbn [bind].
        destruct (IHcruns HD' (mkJC (jc_stack c) st) (cs0 ++ [(d, prod_mat n [])])) as (c' & E' & I' & P'); auto.
        { unfold Inv; cbn [jc_stack]. rewrite Hh. cbn. rewrite Hh in HI2. intuition. }
        exists c'. split; auto. split; auto. rewrite <- app_assoc in P'. exact P'.
      * destruct fs as [|f fs]. { destruct HI as (_ & Hl & _). rewrite Hh in Hl. contradiction. }
        destruct (Inv_top n al (jc_stack c) f fs HI) as (v & V1 & V2 & V3 & V4).
        rewrite V1. cbn [bind].
        destruct (P_add cs0 (jc_store c) d v (prod_mat n (f :: fs)) HP Hd Ha) as (st & E & HP1); auto.
        { congruence. } { rewrite H, <- V3. exact V4. }
        rewrite E. cbn [bind].
        destruct (IHcruns HD' (mkJC (jc_stack c) st) (cs0 ++ [(d, prod_mat n (f :: fs))])) as (c' & E' & I' & P'); auto.
        exists c'. split; auto. split; auto. rewrite <- app_assoc in P'. exact P'.
    + cbn [negb bind].
      destruct (IHcruns HD' c (cs0 ++ [(d, prod_mat n fs)])) as (c' & E' & I' & P'); auto.
      exists c'. split; auto. split; auto. rewrite <- app_assoc in P'. exact P'.
Qed.
End Generic.

(** ** the sparse map *)
Definition blk_lt (a b : dvar * @dmat K) : Prop := (dv_block (fst a) < dv_block (fst b))%Z.
Definition sorted (m : @jmap K) : Prop := StronglySorted blk_lt m.

Definition spP (n : nat) (D : list dvar) (cs : list (@contribution K)) (m : @jmap K) : Prop :=
  incl (map fst cs) D /\ sorted m /\
  (forall d M, In (d, M) m -> dv_active d = true /\ In d (map fst cs) /\
      d_rows M = n /\ d_cols M = dv_dim d /\ meq n (dv_dim d) (d_at M) (total cs d)) /\
  (forall d, In d (map fst cs) -> dv_active d = true -> exists M, In (d, M) m).

Lemma sp_addJ_spec : forall D m d J,
  wf_dvs D -> In d D -> dv_active d = true -> sorted m ->
  (forall d' M, In (d', M) m -> In d' D /\ dv_active d' = true /\
       (d' = d -> d_rows M = d_rows J /\ d_cols M = d_cols J)) ->
  exists m', sp_addJ m d J = Ok m' /\ sorted m' /\
    (forall d' M', In (d', M') m' <->
       (d' <> d /\ In (d', M') m) \/
       (d' = d /\ ((exists M, In (d, M) m /\ M' = dadd M J) \/ ((forall M, ~ In (d, M) m) /\ M' = J)))).
Proof.
  intros D m d J (W1 & W2 & W3) Hd Ha. induction m as [|[d1 M1] m IH]; intros Hs Hin.
  - exists [(d, J)]. cbn. split; auto. split. { repeat constructor. }
    intros d' M'. split.
    + intros [E|[]]. injection E as <- <-. right. split; auto.
    + intros [[_ []]|[-> [(M & [] & _)|(_ & ->)]]]. left; reflexivity.
  - destruct (Hin d1 M1 (or_introl eq_refl)) as (D1 & A1 & S1).
    inversion Hs as [|? ? Hs' Hall]; subst.
    cbn [sp_addJ].
    assert (Hlt : forall d2 M2, In (d2, M2) m -> (dv_block d1 < dv_block d2)%Z).
    { intros d2 M2 H2. rewrite Forall_forall in Hall. apply (Hall (d2, M2) H2). }
    destruct (Z.ltb_spec (dv_block d) (dv_block d1)).
    + exists ((d, J) :: (d1, M1) :: m). split; auto. split.
      { constructor; auto. constructor; [exact H|]. apply Forall_forall. intros [d2 M2] H2.
        unfold blk_lt; cbn. specialize (Hlt d2 M2 H2). lia. }
      assert (Hno : forall M, ~ In (d, M) ((d1, M1) :: m)).
      { intros M [E|H2]. injection E as -> ->; lia. specialize (Hlt d M H2). lia. }
      intros d' M'. split.
      * intros [E|H2].
        -- injection E as <- <-. right; auto.
        -- left. split; auto. intros ->. apply (Hno M'); auto.
      * intros [[_ H2]|[-> [(M & H2 & _)|(_ & ->)]]].
        -- right; auto.
        -- destruct (Hno M H2).
        -- left; reflexivity.
    + destruct (Z.ltb_spec (dv_block d1) (dv_block d)).
      * destruct IH as (m' & E & Sm & Hm); auto.
        { intros d' M HM. apply Hin. right; auto. }
        exists ((d1, M1) :: m'). rewrite E. cbn [bind]. split; auto.
        assert (Hne : d1 <> d) by (intros ->; lia).
        split.
        { constructor; auto. apply Forall_forall. intros [d2 M2] H2. unfold blk_lt; cbn.
          apply Hm in H2. destruct H2 as [[_ H2]|[-> _]]; [eapply Hlt; eauto|lia]. }
        intros d' M'. split.
        -- intros [E'|H2].
           ++ injection E' as <- <-. left. split; auto. left; reflexivity.
           ++ apply Hm in H2. destruct H2 as [[Hn H2]|[-> [(M & H2 & E2)|(H2 & E2)]]].
              ** left. split; auto. right; auto.
              ** right. split; auto. left. exists M. split; auto. right; auto.
              ** right. split; auto. right. split; auto. intros M [E'|H3]; [injection E' as <- <-; auto|apply (H2 M H3)].
        -- intros [[Hn [E'|H2]]|[-> [(M & [E'|H2] & E2)|(H2 & E2)]]].
           ++ left; auto.
           ++ right. apply Hm. left; auto.
           ++ injection E' as E1 E2'; congruence.
           ++ right. apply Hm. right. split; auto. left. exists M; auto.
           ++ right. apply Hm. right. split; auto. right. split; auto. intros M H3; apply (H2 M); right; auto.
      * assert (Heq : d1 = d) by (apply W3; auto; lia). subst d1.
        rewrite Nat.eqb_refl. cbn [negb].
        destruct (S1 eq_refl) as [E1 E2]. unfold same_dims. rewrite E1, E2, !Nat.eqb_refl. cbn [andb].
        exists ((d, dadd M1 J) :: m). split; auto. split.
        { constructor; auto. }
        intros d' M'. split.
        -- intros [E'|H2].
           ++ injection E' as <- <-. right. split; auto. left. exists M1. split; auto. left; auto.
           ++ left. split; [|right; auto]. intros ->. specialize (Hlt d M' H2). lia.
        -- intros [[Hn [E'|H2]]|[-> [(M & [E'|H2] & E3)|(H2 & E3)]]].
           ++ injection E' as <- <-. congruence.
           ++ right; auto.
           ++ injection E' as <-. subst M'. left; reflexivity.
           ++ specialize (Hlt d M H2). lia.
           ++ destruct (H2 M1). left; reflexivity.
Qed.

Lemma spP_add : forall n D, wf_dvs D -> forall cs m d J C, spP n D cs m -> In d D -> dv_active d = true ->
  d_rows J = n -> d_cols J = dv_dim d -> meq n (dv_dim d) (d_at J) C ->
  exists m', sp_addJ m d J = Ok m' /\ spP n D (cs ++ [(d, C)]) m'.
Proof.
  intros n D W cs m d J C (P1 & P2 & P3 & P4) Hd Ha Hr Hc HJ.
  destruct (sp_addJ_spec D m d J W Hd Ha P2) as (m' & E & S & Hm).
  { intros d' M HM. destruct (P3 d' M HM) as (A1 & A2 & A3 & A4 & A5).
    split; auto. split; auto. intros ->; split; congruence. }
  exists m'. split; auto. 
  assert (HD : incl (map fst (cs ++ [(d, C)])) D).
  { rewrite map_app. intros x Hx. apply in_app_or in Hx. destruct Hx as [Hx|[<-|[]]]; auto. }
  split; [exact HD|]. split; [exact S|]. split.
  - intros d' M' HM'. apply Hm in HM'. rewrite map_app.
    destruct HM' as [[Hn HM]|[-> [(M & HM & ->)|(Hno & ->)]]].
    + destruct (P3 d' M' HM) as (A1 & A2 & A3 & A4 & A5).
      repeat split; auto. apply in_or_app; auto.
      intros i j Hi Hj. rewrite A5 by auto. rewrite total_app, total_cons_other.
      unfold total at 3; cbn. ring.
      cbn [fst]. intro Eid. apply Hn. symmetry. apply (proj1 W); auto.
    + destruct (P3 d M HM) as (A1 & A2 & A3 & A4 & A5).
      repeat split; auto. apply in_or_app; auto.
      intros i j Hi Hj. cbn [d_at dadd]. unfold madd. rewrite A5, HJ by auto.
      rewrite total_app, total_cons_same by reflexivity. unfold total at 3; cbn. ring.
    + repeat split; auto. apply in_or_app; right; left; reflexivity.
      intros i j Hi Hj. rewrite HJ by auto.
      rewrite total_app, total_cons_same by reflexivity. 
      rewrite (total_notin cs). unfold total; cbn. ring.
      intros c Hin Eid. assert (fst c = d).
      { apply (proj1 W); auto. apply P1. apply in_map; auto. }
      destruct (P4 d) as (M & HM); auto. rewrite <- H. apply in_map; auto. apply (Hno M HM).
  - intros d' Hin Ha'. rewrite map_app in Hin. 
    destruct (Nat.eq_dec (dv_id d') (dv_id d)) as [Eid|Nid].
    + assert (d' = d). { apply (proj1 W); auto. apply HD. rewrite map_app; auto. } subst d'.
      destruct (in_dec Nat.eq_dec (dv_id d) (map (fun e => dv_id (fst e)) m)) as [Hi|Hni].
      * apply in_map_iff in Hi. destruct Hi as ([d2 M2] & E2 & H2). cbn in E2.
        destruct (P3 d2 M2 H2) as (_ & B & _). assert (d2 = d) by (apply (proj1 W); auto). subst d2.
        exists (dadd M2 J). apply Hm. right. split; auto. left. exists M2; auto.
      * exists J. apply Hm. right. split; auto. right. split; auto.
        intros M HM. apply Hni. apply in_map_iff. exists (d, M); auto.
    + apply in_app_or in Hin. destruct Hin as [Hin|[E'|[]]]; [|cbn in E'; congruence].
      destruct (P4 d' Hin Ha') as (M & HM). exists M. apply Hm. left. split; auto. congruence.
Qed.

Lemma spP_inactive : forall n D, wf_dvs D -> forall cs m d C, spP n D cs m -> In d D -> dv_active d = false ->
  spP n D (cs ++ [(d, C)]) m.
Proof.
  intros n D W cs m d C (P1 & P2 & P3 & P4) Hd Ha.
  assert (HD : incl (map fst (cs ++ [(d, C)])) D).
  { rewrite map_app. intros x Hx. apply in_app_or in Hx. destruct Hx as [Hx|[<-|[]]]; auto. }
  split; [exact HD|]. split; [exact P2|]. split.
  - intros d' M' HM. destruct (P3 d' M' HM) as (A1 & A2 & A3 & A4 & A5). rewrite map_app.
    repeat split; auto. apply in_or_app; auto.
    intros i j Hi Hj. rewrite A5 by auto. rewrite total_app, total_cons_other.
    unfold total at 3; cbn. ring.
    cbn [fst]. intro Eid. assert (d' = d) by (apply (proj1 W); auto). congruence.
  - intros d' Hin Ha'. rewrite map_app in Hin. apply in_app_or in Hin.
    destruct Hin as [Hin|[E|[]]]; auto. cbn in E. congruence.
Qed.

Lemma spP_nil : forall n D, spP n D [] [].
Proof.
  intros. repeat split; cbn; try contradiction. intros x []. constructor.
Qed.

Lemma cruns_dvs : forall n al fs evs cs fs', cruns n al fs evs cs fs' -> map fst cs = @event_dvs K evs.
Proof. intros n al fs evs cs fs' H; induction H; cbn; auto; f_equal; auto. Qed.

(** sparse container after any event sequence *)
Lemma sparse_run : forall n al evs cs fs,
  0 < al -> (N.of_nat n < 65536)%N -> cruns n al [] evs cs fs -> wf_dvs (event_dvs evs) ->
  exists c, jc_run _ sp_addJ al (sp_init n) (map cop_of evs) = Ok c /\
    Inv n al (jc_stack c) fs /\ spP n (event_dvs evs) cs (jc_store c).
Proof.
  intros n al evs cs fs Hal Hn H W.
  destruct (generic_run _ sp_addJ n al (event_dvs evs) Hal (spP n (event_dvs evs)) W
              (spP_add n _ W) (spP_inactive n _ W) [] evs cs fs H (incl_refl _) (sp_init n) [])
    as (c & E & I & HP).
  - apply init_inv; auto.
  - apply spP_nil.
  - exists c; auto.
Qed.

(** ** the dense container *)
Definition inrange (d : dvar) (j : nat) : Prop :=
  (dv_col d <= Z.of_nat j < dv_col d + Z.of_nat (dv_dim d))%Z.

Definition deP (n cols : nat) (D : list dvar) (cs : list (@contribution K)) (s : @dense K) : Prop :=
  incl (map fst cs) D /\ de_rows s = n /\ de_cols s = cols /\
  (forall d i k, In d D -> dv_active d = true -> i < n -> k < dv_dim d ->
     de_mat s i (Z.to_nat (dv_col d) + k) = total cs d i k) /\
  (forall i j, (forall d, In d D -> dv_active d = true -> ~ inrange d j) -> de_mat s i j = k0).

Lemma deP_add : forall n cols D, wf_dvs D -> wf_cols cols D ->
  forall cs s d J C, deP n cols D cs s -> In d D -> dv_active d = true ->
  d_rows J = n -> d_cols J = dv_dim d -> meq n (dv_dim d) (d_at J) C ->
  exists s', de_addJ s d J = Ok s' /\ deP n cols D (cs ++ [(d, C)]) s'.
Proof.
  intros n cols D W (WC1 & WC2) cs s d J C (P1 & P2 & P3 & P4 & P5) Hd Ha Hr Hc HJ.
  destruct (WC1 d Hd Ha) as [C1 C2].
  unfold de_addJ. rewrite P2, Hr, Nat.eqb_refl. cbn [negb].
  rewrite (proj2 (Z.ltb_ge (dv_col d) 0)) by lia. rewrite P3, Hc.
  rewrite (proj2 (Z.ltb_ge (Z.of_nat cols) _)) by lia. cbn [orb].
  eexists; split; [reflexivity|].
  split. { rewrite map_app. intros x Hx. apply in_app_or in Hx. destruct Hx as [Hx|[<-|[]]]; auto. }
  cbn [de_rows de_cols de_mat]. split; auto. split; auto. split.
  - intros d' i k Hd' Ha' Hi Hk. rewrite total_app.
    destruct (Nat.eq_dec (dv_id d') (dv_id d)) as [Eid|Nid].
    + assert (d' = d) by (apply (proj1 W); auto). subst d'.
      rewrite total_cons_same by reflexivity. unfold total at 2; cbn [filter lsum snd].
      replace ((Z.to_nat (dv_col d) <=? Z.to_nat (dv_col d) + k) && (Z.to_nat (dv_col d) + k <? Z.to_nat (dv_col d) + dv_dim d) && (i <? n)) with true.
      2: { symmetry. rewrite !andb_true_iff, Nat.leb_le, !Nat.ltb_lt. lia. }
      rewrite P4 by auto. replace (Z.to_nat (dv_col d) + k - Z.to_nat (dv_col d)) with k by lia.
      rewrite HJ by auto. ring.
    + rewrite total_cons_other by (cbn; auto). unfold total at 2; cbn [filter lsum].
      assert (Hne : d <> d') by congruence.
      destruct (WC1 d' Hd' Ha') as [C1' C2'].
      replace ((Z.to_nat (dv_col d) <=? Z.to_nat (dv_col d') + k) && (Z.to_nat (dv_col d') + k <? Z.to_nat (dv_col d) + dv_dim d) && (i <? n)) with false.
      2: { symmetry. rewrite !andb_false_iff, Nat.leb_gt, !Nat.ltb_ge.
           destruct (WC2 d d' Hd Hd' Ha Ha' Hne); left; [right|left]; lia. }
      rewrite P4 by auto. ring.
  - intros i j Hno. specialize (Hno) as Hno'. rewrite P5 by auto.
    specialize (Hno d Hd Ha). unfold inrange in Hno.
    replace ((Z.to_nat (dv_col d) <=? j) && (j <? Z.to_nat (dv_col d) + dv_dim d) && (i <? n)) with false; auto.
    symmetry. rewrite !andb_false_iff, Nat.leb_gt, !Nat.ltb_ge. lia.
Qed.

Lemma deP_inactive : forall n cols D, wf_dvs D -> forall cs s d C, deP n cols D cs s -> In d D -> dv_active d = false ->
  deP n cols D (cs ++ [(d, C)]) s.
Proof.
  intros n cols D W cs s d C (P1 & P2 & P3 & P4 & P5) Hd Ha.
  split. { rewrite map_app. intros x Hx. apply in_app_or in Hx. destruct Hx as [Hx|[<-|[]]]; auto. }
  split; auto. split; auto. split; auto.
  intros d' i k Hd' Ha' Hi Hk. rewrite total_app, total_cons_other.
  - unfold total at 2; cbn. rewrite P4 by auto. ring.
  - cbn. intro. assert (d' = d) by (apply (proj1 W); auto). congruence.
Qed.

Lemma dense_run : forall n cols al evs cs fs,
  0 < al -> (N.of_nat n < 65536)%N -> cruns n al [] evs cs fs -> wf_dvs (event_dvs evs) ->
  wf_cols cols (event_dvs evs) ->
  exists c, jc_run _ de_addJ al (de_init n cols) (map cop_of evs) = Ok c /\
    Inv n al (jc_stack c) fs /\ deP n cols (event_dvs evs) cs (jc_store c).
Proof.
  intros n cols al evs cs fs Hal Hn H W WC.
  destruct (generic_run _ de_addJ n al (event_dvs evs) Hal (deP n cols (event_dvs evs)) W
              (deP_add n cols _ W WC) (deP_inactive n cols _ W) [] evs cs fs H (incl_refl _) (de_init n cols) [])
    as (c & E & I & HP).
  - apply init_inv; auto.
  - repeat split; cbn; auto. intros x [].
  - exists c; auto.
Qed.
End Proofs.
