(** * Property-level lemmas for the Jacobian containers *)
From Coq Require Import Arith Lia List ZArith NArith Bool Ring Sorted Permutation.
From Verif Require Import Lib_Ring Lib_Res MatrixStack_Model MatrixStack_Spec MatrixStack_Proofs
  DesignVar_Base Jacobian_Model Jacobian_Spec Jacobian_Proofs Jacobian_Proofs2.
Import ListNotations.

Section Proofs.
Context {K : Type} {R : CRing K}.
Add Ring Kring : (@kring K R).
Notation dvar := (dvar K).
Notation jmap := (@jmap K).
Notation dmat := (@dmat K).
Notation blk e := (dv_block (fst e)).

Lemma sp_Jacobian_get : forall (m : jmap) d, sp_Jacobian m d = match get m (dv_block d) with Some e => Ok (snd e) | None => Throw end.
Proof. reflexivity. Qed.

(** every entry of the store is the total derivative, and every active contributed dv is there *)
Lemma spP_Jacobian : forall n D cs m d, wf_dvs D -> spP n D cs m -> In d D -> dv_active d = true ->
  (In d (map fst cs) -> exists M, sp_Jacobian m d = Ok M /\ d_rows M = n /\ d_cols M = dv_dim d /\
      meq n (dv_dim d) (d_at M) (total cs d)) /\
  (~ In d (map fst cs) -> sp_Jacobian m d = Throw).
Proof.
  intros n D cs m d W (P1 & P2 & P3 & P4) Hd Ha. rewrite sp_Jacobian_get. split; intros H.
  - destruct (P4 d H Ha) as (M & HM). pose proof (get_sorted_In m (d, M) P2 HM) as E. cbn [fst] in E. rewrite E.
    exists M. split; auto. destruct (P3 d M HM) as (A1 & A2 & A3 & A4 & A5). auto.
  - destruct (get m (dv_block d)) as [[d' M]|] eqn:E; auto. apply get_In in E. destruct E as [E1 E2]. cbn in E2.
    destruct (P3 d' M E1) as (A1 & A2 & _).
    assert (d' = d) by (apply (proj2 (proj2 W)); auto). subst. contradiction.
Qed.

Lemma sparse_accumulates : forall n al evs cs fs,
  0 < al -> (N.of_nat n < 65536)%N -> cruns n al [] evs cs fs -> wf_dvs (event_dvs evs) ->
  exists c, jc_run _ sp_addJ al (sp_init n) (map cop_of evs) = Ok c /\
    (forall d M, In (d, M) (jc_store c) <->
       In d (event_dvs evs) /\ dv_active d = true /\ sp_Jacobian (jc_store c) d = Ok M) /\
    NoDup (map fst (jc_store c)) /\
    forall d, In d (event_dvs evs) -> dv_active d = true ->
      exists M, sp_Jacobian (jc_store c) d = Ok M /\ d_rows M = n /\ d_cols M = dv_dim d /\
        forall i j, i < n -> j < dv_dim d -> d_at M i j = total cs d i j.
Proof.
  intros n al evs cs fs Hal Hn H W.
  destruct (sparse_run n al evs cs fs Hal Hn H W) as (c & E & I & P).
  exists c. split; auto. pose proof (cruns_dvs _ _ _ _ _ _ H) as Hdv.
  pose proof P as (P1 & P2 & P3 & P4). split; [|split].
  - intros d M. split.
    + intros H0. destruct (P3 d M H0) as (A1 & A2 & _). rewrite Hdv in A2.
      split; [exact A2|]. split; [exact A1|].
      rewrite sp_Jacobian_get. pose proof (get_sorted_In _ (d, M) P2 H0) as G. cbn [fst] in G. rewrite G. reflexivity.
    + intros (H1 & H2 & H3). rewrite sp_Jacobian_get in H3.
      destruct (get (jc_store c) (dv_block d)) as [[d' M']|] eqn:G; [|discriminate].
      injection H3 as <-. apply get_In in G. destruct G as [G1 G2]. cbn in G2.
      destruct (P3 d' M' G1) as (A1 & A2 & _). rewrite Hdv in A2.
      assert (d' = d) by (apply (proj2 (proj2 W)); auto). subst. exact G1.
  - clear -P2. induction (jc_store c) as [|e m IH]; cbn; constructor.
    + intro Hin. apply in_map_iff in Hin. destruct Hin as (e' & Ee & He').
      pose proof (sorted_hd _ _ P2 e' He'). rewrite Ee in H. lia.
    + apply IH. eapply sorted_tl; eauto.
  - intros d Hd Ha. destruct (spP_Jacobian n _ cs _ d W P Hd Ha) as [S _].
    rewrite Hdv in S. exact (S Hd).
Qed.

(** prescaled wrapper: multiplies every contribution by the wrapped chain and the scalar *)
Lemma total_map_scale : forall n fs0 a (cs : list (@contribution K)) d i j,
  total (map (outer_contrib n fs0 a) cs) d i j =
  mmul (prod_cols n fs0) (prod_mat n fs0) (mscale a (total cs d)) i j.
Proof.
  intros n fs0 a cs d i j. unfold total. induction cs as [|c cs IH]; cbn [map filter lsum].
  - symmetry. unfold mmul, mscale. apply ksum_zero; intros; ring.
  - cbn [outer_contrib fst]. destruct (dv_id (fst c) =? dv_id d); [|exact IH].
    cbn [lsum snd outer_contrib]. rewrite IH. unfold mmul, mscale. rewrite <- ksum_add. apply ksum_ext; intros. ring.
Qed.

Lemma Inv_rows : forall n al s fs, Inv n al s fs -> @ms_rows K s = n.
Proof. intros n al s fs H. apply H. Qed.

Lemma prescaled_accumulates : forall n al evs0 cs0 fs0 a evs cs fs,
  0 < al -> (N.of_nat n < 65536)%N ->
  cruns n al [] evs0 cs0 fs0 ->
  (N.of_nat (prod_cols n fs0) < 65536)%N ->
  cruns (prod_cols n fs0) al [] evs cs fs ->
  wf_dvs (event_dvs (evs0 ++ evs)) ->
  exists c0 c, jc_run _ sp_addJ al (sp_init n) (map cop_of evs0) = Ok c0 /\
    ps_run sp_addJ al a (mkJC (ms_init (prod_cols n fs0) 100 9) c0) (map cop_of evs) = Ok c /\
    forall d, In d (event_dvs (evs0 ++ evs)) -> dv_active d = true ->
      exists M, sp_Jacobian (jc_store (jc_store c)) d = Ok M /\ d_rows M = n /\ d_cols M = dv_dim d /\
        forall i j, i < n -> j < dv_dim d ->
          d_at M i j = kadd (total cs0 d i j)
            (mmul (prod_cols n fs0) (prod_mat n fs0) (mscale a (total cs d)) i j).
Proof.
  intros n al evs0 cs0 fs0 a evs cs fs Hal Hn H0 Hn2 H W.
  assert (Eev : event_dvs (evs0 ++ evs) = @event_dvs K evs0 ++ event_dvs evs) by apply flat_map_app.
  set (D := event_dvs (evs0 ++ evs)) in *.
  destruct (generic_run _ sp_addJ n al D Hal (spP n D) W
              (spP_add n _ W) (spP_inactive n _ W) [] evs0 cs0 fs0 H0) with (c := sp_init (K := K) n) (cs0 := @nil (@contribution K))
    as (c0 & E0 & I0 & P0).
  { rewrite Eev. apply incl_appl, incl_refl. }
  { apply init_inv; auto. }
  { apply spP_nil. }
  cbn [app] in P0.
  destruct (prescaled_run n al D fs0 a [] evs cs fs Hal W H) with (c := mkJC (ms_init (K:=K) (prod_cols n fs0) 100 9) c0) (cs0 := cs0)
    as (c & E & I & I2 & P).
  { rewrite Eev. apply incl_appr, incl_refl. }
  { apply init_inv; auto. }
  { exact I0. } { exact P0. }
  exists c0, c. split; auto. split; auto.
  intros d Hd Ha.
  destruct (spP_Jacobian n D _ _ d W P Hd Ha) as [S _].
  destruct S as (M & S1 & S2 & S3 & S4).
  { rewrite map_app. apply in_or_app. rewrite Eev in Hd. apply in_app_or in Hd.
    rewrite <- (cruns_dvs _ _ _ _ _ _ H0), <- (cruns_dvs _ _ _ _ _ _ H) in Hd.
    destruct Hd as [Hd|Hd]; [left; exact Hd|right].
    apply in_map_iff in Hd. destruct Hd as (x & <- & Hx).
    apply in_map_iff. exists (outer_contrib n fs0 a x). split; [reflexivity|]. apply in_map; auto. }
  exists M. split; auto. split; auto. split; auto. intros i j Hi Hj.
  rewrite S4 by auto. rewrite total_app, total_map_scale. reflexivity.
Qed.

(** ** merging, in terms of Jacobian(dv) *)
Definition wf_map (rows : nat) (m : jmap) : Prop :=
  sorted m /\ forall d M, In (d, M) m -> (0 <= dv_block d)%Z /\ d_rows M = rows /\ d_cols M = dv_dim d.

Lemma spP_wf_map : forall n D cs m, wf_dvs D -> spP n D cs m -> wf_map n m.
Proof.
  intros n D cs m W (P1 & P2 & P3 & P4). split; auto. intros d M H.
  destruct (P3 d M H) as (A1 & A2 & A3 & A4 & _). split; auto. apply (proj1 (proj2 W)); auto.
Qed.

Lemma merge_pointwise : forall rows (C : option dmat) (L Rm : jmap) D,
  wf_dvs D -> wf_map rows L -> wf_map rows Rm ->
  (forall e, In e L \/ In e Rm -> In (fst e) D /\ dv_active (fst e) = true) ->
  match C with Some c => d_cols c = rows /\ d_rows c = rows | None => True end ->
  exists m', sp_merge rows rows C L Rm = Ok m' /\ wf_map rows m' /\
   (forall e, In e m' -> In (fst e) D /\ dv_active (fst e) = true) /\
   forall d, In d D -> dv_active d = true ->
     match sp_Jacobian L d, sp_Jacobian Rm d with
     | Ok A, Ok B => exists M, sp_Jacobian m' d = Ok M /\ d_rows M = rows /\ d_cols M = dv_dim d /\
          forall i j, d_at M i j = kadd (d_at A i j) (d_at (maybe_chain C B) i j)
     | Ok A, _ => sp_Jacobian m' d = Ok A
     | _, Ok B => sp_Jacobian m' d = Ok (maybe_chain C B)
     | _, _ => sp_Jacobian m' d = Throw
     end.
Proof.
  intros rows C L Rm D W [L1 L2] [R1 R2] HD HC.
  assert (Hdv : forall e e', In e L -> In e' Rm -> blk e = blk e' -> fst e = fst e').
  { intros e e' He He' Hb. destruct (HD e (or_introl He)), (HD e' (or_intror He')).
    apply (proj2 (proj2 W)); auto. }
  assert (HcR : forall d B, In (d, B) Rm -> d_rows (maybe_chain C B) = rows /\ d_cols (maybe_chain C B) = dv_dim d).
  { intros d B HB. destruct (R2 d B HB) as (B1 & B2 & B3). destruct C; cbn; auto. destruct HC; auto. }
  destruct (merge_correct C L Rm L1 R1) with (rows := rows) as (m' & E & S & G).
  - intros e e' He He' Hb. rewrite (Hdv e e'); auto.
  - intros [d A] [d' B] He He' Hb. pose proof (Hdv _ _ He He' Hb) as Ed. cbn in Ed. subst d'.
    destruct (L2 d A He) as (A1 & A2 & A3). destruct (HcR d B He') as [B1 B2].
    unfold same_dims. cbn [snd]. rewrite A2, A3, B1, B2, !Nat.eqb_refl. reflexivity.
  - intros [d A] He. apply (L2 d A He).
  - intros [d A] He. apply (R2 d A He).
  - destruct C; auto. apply HC.
  - exists m'. split; auto.
    assert (Hfrom : forall e, In e m' -> (exists A, In (fst e, A) L /\ (snd e = A \/ exists B, In (fst e, B) Rm /\ snd e = dadd A (maybe_chain C B)))
               \/ exists B, In (fst e, B) Rm /\ snd e = maybe_chain C B).
    { intros e He. pose proof (get_sorted_In _ e S He) as Ge. rewrite G in Ge. unfold comb in Ge.
      destruct (get L (blk e)) as [[dl A]|] eqn:GL.
      - apply get_In in GL. destruct GL as [GL1 GL2]. cbn in GL2.
        destruct (get Rm (blk e)) as [[dr B]|] eqn:GR.
        + apply get_In in GR. destruct GR as [GR1 GR2]. cbn in GR2.
          injection Ge as <-. cbn [fst snd] in *.
          assert (dl = dr) by (apply (Hdv _ _ GL1 GR1); cbn; congruence). subst dr.
          left. exists A. split; auto. right. exists B. auto.
        + injection Ge as <-. cbn [fst snd] in *. left. exists A. auto.
      - destruct (get Rm (blk e)) as [[dr B]|] eqn:GR; [|discriminate].
        injection Ge as <-. apply get_In in GR. destruct GR as [GR1 GR2]. cbn in *. right. exists B. auto. }
    split; [|split].
    + split; auto. intros d M HM. destruct (Hfrom _ HM) as [(A & HA & Hor)|(B & HB & HM')]; cbn [fst snd] in *.
      * destruct (L2 d A HA) as (A1 & A2 & A3). split; auto.
        destruct Hor as [->|(B & HB & ->)]; cbn; auto.
      * destruct (R2 d B HB) as (B1 & _). destruct (HcR d B HB) as [B2 B3]. subst M. auto.
    + intros e He. destruct (Hfrom _ He) as [(A & HA & _)|(B & HB & _)].
      * apply (HD (fst e, A)); auto.
      * apply (HD (fst e, B)); auto.
    + intros d Hd Ha. rewrite !sp_Jacobian_get, G. unfold comb.
      destruct (get L (dv_block d)) as [[dl A]|] eqn:GL.
      * apply get_In in GL. destruct GL as [GL1 GL2]. cbn in GL2.
        destruct (get Rm (dv_block d)) as [[dr B]|] eqn:GR; cbn [snd]; auto.
        eexists; split; [reflexivity|]. cbn. destruct (L2 _ _ GL1) as (A1 & A2 & A3).
        assert (dl = d). { destruct (HD _ (or_introl GL1)). apply (proj2 (proj2 W)); auto. }
        subst dl. repeat split; auto.
      * destruct (get Rm (dv_block d)) as [[dr B]|]; reflexivity.
Qed.

Lemma chain_pointwise : forall rows (m : jmap) A, d_cols A = rows ->
  exists m', sp_applyChainRule rows m A = Ok (d_rows A, m') /\ map fst m' = map fst m /\
    forall d, sp_Jacobian m' d = (do J <- sp_Jacobian m d; Ok (dmul A J)).
Proof.
  intros rows m A H. unfold sp_applyChainRule. rewrite H, Nat.eqb_refl. cbn [negb].
  eexists; split; [reflexivity|]. split.
  - rewrite map_map. apply map_ext. reflexivity.
  - intros d. rewrite !sp_Jacobian_get. induction m as [|e m IH]; [reflexivity|].
    unfold get in *; cbn [map find fst]. destruct (blk e =? dv_block d)%Z; [reflexivity|exact IH].
Qed.

(** containers that come from evaluating expressions *)
Lemma merge_of_runs : forall n al evs1 cs1 fs1 evs2 cs2 fs2 (C : option dmat),
  0 < al -> (N.of_nat n < 65536)%N ->
  cruns n al [] evs1 cs1 fs1 -> cruns n al [] evs2 cs2 fs2 ->
  wf_dvs (event_dvs (evs1 ++ evs2)) ->
  match C with Some c => d_cols c = n /\ d_rows c = n | None => True end ->
  exists c1 c2 m', jc_run _ sp_addJ al (sp_init n) (map cop_of evs1) = Ok c1 /\
    jc_run _ sp_addJ al (sp_init n) (map cop_of evs2) = Ok c2 /\
    sp_merge n n C (jc_store c1) (jc_store c2) = Ok m' /\
    (forall e, In e m' -> In (fst e) (event_dvs (evs1 ++ evs2)) /\ dv_active (fst e) = true) /\
    forall d, In d (event_dvs (evs1 ++ evs2)) -> dv_active d = true ->
      exists M, sp_Jacobian m' d = Ok M /\ d_rows M = n /\ d_cols M = dv_dim d /\
      forall i j, i < n -> j < dv_dim d -> d_at M i j =
        kadd (total cs1 d i j) (match C with None => total cs2 d i j
                                | Some c => mmul n (d_at c) (total cs2 d) i j end).
Proof.
  intros n al evs1 cs1 fs1 evs2 cs2 fs2 C Hal Hn H1 H2 W HC.
  assert (Eev : event_dvs (evs1 ++ evs2) = @event_dvs K evs1 ++ event_dvs evs2) by apply flat_map_app.
  set (D := event_dvs (evs1 ++ evs2)) in *.
  assert (Hrun : forall evs cs fs, cruns n al [] evs cs fs -> incl (event_dvs evs) D ->
     exists c, jc_run _ sp_addJ al (sp_init n) (map cop_of evs) = Ok c /\ spP n D cs (jc_store c)).
  { intros evs cs fs Hc Hi.
    destruct (generic_run _ sp_addJ n al D Hal (spP n D) W
              (spP_add n _ W) (spP_inactive n _ W) [] evs cs fs Hc Hi (sp_init (K := K) n) [])
     as (c & E & I & P).
    - apply init_inv; auto.
    - apply spP_nil.
    - eauto. }
  destruct (Hrun evs1 cs1 fs1 H1) as (c1 & E1 & P1). { rewrite Eev. apply incl_appl, incl_refl. }
  destruct (Hrun evs2 cs2 fs2 H2) as (c2 & E2 & P2). { rewrite Eev. apply incl_appr, incl_refl. }
  destruct (merge_pointwise n C (jc_store c1) (jc_store c2) D W) as (m' & Em & Wm & Dm & Pm).
  { eapply spP_wf_map; eauto. } { eapply spP_wf_map; eauto. }
  { intros [d M] [He|He]; cbn [fst].
    - destruct P1 as (A1 & A2 & A3 & A4). destruct (A3 d M He) as (B1 & B2 & _). split; auto.
    - destruct P2 as (A1 & A2 & A3 & A4). destruct (A3 d M He) as (B1 & B2 & _). split; auto. }
  { exact HC. }
  exists c1, c2, m'. repeat split; auto; try (apply Dm; auto).
  intros d Hd Ha. specialize (Pm d Hd Ha).
  destruct (spP_Jacobian n D cs1 _ d W P1 Hd Ha) as [S1 T1].
  destruct (spP_Jacobian n D cs2 _ d W P2 Hd Ha) as [S2 T2].
  assert (Z0 : forall (cs : list (@contribution K)), incl (map fst cs) D -> ~ In d (map fst cs) -> forall i j, total cs d i j = k0).
  { intros cs HiD Hni i j. apply total_notin. intros c Hc Hid. apply Hni.
    replace d with (fst c). apply in_map; auto. apply (proj1 W); auto. apply HiD, in_map; auto. }
  assert (Hd' : In d (map fst cs1) \/ In d (map fst cs2)).
  { rewrite (cruns_dvs _ _ _ _ _ _ H1), (cruns_dvs _ _ _ _ _ _ H2). apply in_app_or. rewrite <- Eev. exact Hd. }
  assert (DEC : forall l : list dvar, incl l D -> In d l \/ ~ In d l).
  { intros l Hl. destruct (existsb (fun x => dv_id x =? dv_id d) l) eqn:Ex.
    - apply existsb_exists in Ex. destruct Ex as (x & Hx & Hxd). apply Nat.eqb_eq in Hxd. left.
      replace d with x; auto. apply (proj1 W); auto.
    - right. intro Hin. assert (existsb (fun x => dv_id x =? dv_id d) l = true).
      { apply existsb_exists. exists d. split; auto. apply Nat.eqb_refl. } congruence. }
  assert (HCB : forall B, meq n (dv_dim d) (d_at B) (total cs2 d) -> d_rows B = n -> d_cols B = dv_dim d ->
      forall i j, i < n -> j < dv_dim d -> d_at (maybe_chain C B) i j = match C with None => total cs2 d i j
                                | Some c => mmul n (d_at c) (total cs2 d) i j end).
  { intros B HB _ _ i j Hi Hj. destruct C as [c|]; cbn [maybe_chain dmul d_at]; [|apply HB; auto].
    destruct HC as [HC1 HC2]. rewrite HC1. unfold mmul. apply ksum_ext. intros k Hk. rewrite HB; auto. }
  destruct (DEC (map fst cs1) (proj1 P1)) as [I1|N1].
  - destruct (S1 I1) as (A & A1 & A2 & A3 & A4). rewrite A1 in Pm.
    destruct (DEC (map fst cs2) (proj1 P2)) as [I2|N2].
    + destruct (S2 I2) as (B & B1 & B2 & B3 & B4). rewrite B1 in Pm.
      destruct Pm as (M & M1 & M2 & M3 & M4). exists M. repeat split; auto.
      intros i j Hi Hj. rewrite M4, A4, HCB by auto. reflexivity.
    + rewrite (T2 N2) in Pm. exists A. repeat split; auto.
      intros i j Hi Hj. rewrite A4 by auto.
      assert (Zt : forall i j, total cs2 d i j = k0) by (apply Z0; [apply P2|auto]).
      destruct C; [unfold mmul; rewrite ksum_zero; [ring|intros; rewrite Zt; ring]|rewrite Zt; ring].
  - rewrite (T1 N1) in Pm. destruct Hd' as [|I2]; [contradiction|].
    destruct (S2 I2) as (B & B1 & B2 & B3 & B4). rewrite B1 in Pm.
    exists (maybe_chain C B). split; auto. repeat split.
    + destruct C; cbn; auto; apply HC.
    + destruct C; cbn; auto.
    + intros i j Hi Hj. rewrite HCB by auto. rewrite (Z0 cs1) by (auto; apply P1). ring.
Qed.

(** ** normal equations *)
Definition code_of (t : @eterm K) : @eterm_code K :=
  mkETC (et_dim t) (map cop_of (et_events t)) (et_error t) (et_sqrtInvR t) (et_sqrtw t).

Lemma find_dv : forall (ds : list dvar) b,
  {d | In d ds /\ dv_active d = true /\ dv_block d = b} +
  {forall d, In d ds -> dv_active d = true -> dv_block d <> b}.
Proof.
  intros ds b. induction ds as [|d ds IH].
  - right. intros d [].
  - destruct (dv_active d) eqn:Ha; [destruct (Z.eq_dec (dv_block d) b)|].
    + left. exists d. cbn; auto.
    + destruct IH as [(x & Hx1 & Hx2)|IH]; [left; exists x; cbn; auto|right].
      intros x [<-|Hx]; auto.
    + destruct IH as [(x & Hx1 & Hx2)|IH]; [left; exists x; cbn; auto|right].
      intros x [<-|Hx] Hx'; auto. congruence.
Qed.

Definition dim_of (ds : list dvar) (b : nat) : nat :=
  match find_dv ds (Z.of_nat b) with inleft (exist _ d _) => dv_dim d | inright _ => 0 end.
Definition sc_of (ds : list dvar) (b : nat) : K :=
  match find_dv ds (Z.of_nat b) with inleft (exist _ d _) => dv_scaling d | inright _ => k0 end.

Section Normal.
Variables (al : nat) (ds : list dvar) (base : nat -> nat).
Hypothesis Hal : 0 < al.
Hypothesis W : wf_dvs ds.
Hypothesis Wb : wf_base base ds.

Lemma find_dv_eq : forall d, In d ds -> dv_active d = true ->
  dim_of ds (Z.to_nat (dv_block d)) = dv_dim d /\ sc_of ds (Z.to_nat (dv_block d)) = dv_scaling d.
Proof.
  intros d Hd Ha. pose proof (proj1 (proj2 W) d Hd Ha) as Hp. unfold dim_of, sc_of.
  rewrite Z2Nat.id by auto.
  destruct (find_dv ds (dv_block d)) as [(x & X1 & X2 & X3)|N].
  - assert (x = d) by (apply (proj2 (proj2 W)); auto). subst; auto.
  - destruct (N d Hd Ha eq_refl).
Qed.

Lemma evalTerm_ok : forall t, wf_eterm al ds t ->
  exists t', evalTerm al (code_of t) = Ok t' /\ wf_term (sc_of ds) (dim_of ds) t' /\
    t_rows t' = et_dim t /\ t_e t' = et_error t /\ t_S t' = et_sqrtInvR t /\ t_sw t' = et_sqrtw t /\
    forall d p i, In d ds -> dv_active d = true -> p < et_dim t -> i < dv_dim d ->
      bJ (t_jac t') (Z.to_nat (dv_block d)) p i = Jt t d p i.
Proof.
  intros t (T1 & T2 & fs & T3). unfold evalTerm, code_of; cbn.
  destruct (generic_run _ sp_addJ (et_dim t) al ds Hal (spP (et_dim t) ds) W
              (spP_add _ _ W) (spP_inactive _ _ W) [] (et_events t) (et_contrib t) fs T3 T2 (sp_init (K := K) (et_dim t)) [])
     as (c & E & I & P).
  - apply init_inv; auto.
  - apply spP_nil.
  - cbn [app] in P. rewrite E. cbn [bind]. eexists; split; [reflexivity|]. cbn. 
    pose proof P as (P1 & P2 & P3 & P4). split.
    + split; [exact P2|]. split.
      * intros [d M] He. cbn. destruct (P3 d M He) as (A1 & A2 & _). apply (proj1 (proj2 W)); auto.
      * intros [d M] He. cbn. destruct (P3 d M He) as (A1 & A2 & A3 & A4 & A5).
        destruct (find_dv_eq d (P1 d A2) A1) as [F1 F2]. split; congruence.
    + repeat split; auto. intros d p i Hd Ha Hp Hi.
      destruct (spP_Jacobian _ ds _ _ d W P Hd Ha) as [S T].
      pose proof (proj1 (proj2 W) d Hd Ha) as Hpos.
      unfold bJ. rewrite Z2Nat.id by auto.
      destruct (existsb (fun x => dv_id x =? dv_id d) (map fst (et_contrib t))) eqn:Ex.
      * apply existsb_exists in Ex. destruct Ex as (x & Hx & Hxd). apply Nat.eqb_eq in Hxd.
        assert (x = d) by (apply (proj1 W); auto). subst x.
        destruct (S Hx) as (M & M1 & M2 & M3 & M4). rewrite sp_Jacobian_get in M1.
        destruct (get (jc_store c) (dv_block d)); [|discriminate]. injection M1 as ->.
        apply M4; auto.
      * assert (Nx : ~ In d (map fst (et_contrib t))).
        { intro Hin. assert (existsb (fun x => dv_id x =? dv_id d) (map fst (et_contrib t)) = true).
          { apply existsb_exists. exists d. split; auto. apply Nat.eqb_refl. } congruence. }
        specialize (T Nx). rewrite sp_Jacobian_get in T.
        destruct (get (jc_store c) (dv_block d)); [discriminate|].
        unfold mzero, Jt. symmetry. apply total_notin. intros c0 Hc0 Hid. apply Nx.
        replace d with (fst c0). apply in_map; auto. apply (proj1 W); auto. apply P1, in_map; auto.
Qed.

Lemma buildTerms_all : forall ts Hr, (forall t, In t ts -> wf_eterm al ds t) ->
  exists ts', buildTerms base al (map code_of ts) Hr = Ok (buildAll base ts' Hr) /\
    Forall2 (fun t t' => evalTerm al (code_of t) = Ok t') ts ts'.
Proof.
  induction ts as [|t ts IH]; intros Hr HT.
  - exists []. split; [reflexivity|constructor].
  - destruct (evalTerm_ok t (HT t (or_introl eq_refl))) as (t' & E & _).
    destruct (IH (buildHessian base t' Hr)) as (ts' & E' & F'). { intros; apply HT; right; auto. }
    exists (t' :: ts'). cbn [map buildTerms]. rewrite E. cbn [bind]. split; [exact E'|]. constructor; auto.
Qed.

Lemma lsum_Forall2 : forall A B (Q : A -> B -> Prop) (l : list A) (l' : list B) (f : A -> K) (g : B -> K),
  Forall2 Q l l' -> (forall a b, In a l -> Q a b -> f a = g b) -> lsum l f = lsum l' g.
Proof.
  intros A B Q l l' f g H. induction H; intros E; cbn; auto.
  rewrite (E x y) by (auto; left; auto). rewrite IHForall2; auto. intros; apply E; auto. right; auto.
Qed.

(** blocks without a variable have no rows; make them disjoint by construction *)
Lemma wf_base_dim : forall b1 b2, b1 <> b2 -> 
  dim_of ds b1 <> 0 -> dim_of ds b2 <> 0 ->
  base b1 + dim_of ds b1 <= base b2 \/ base b2 + dim_of ds b2 <= base b1.
Proof.
  intros b1 b2 Hne N1 N2. unfold dim_of in *.
  destruct (find_dv ds (Z.of_nat b1)) as [(x & X1 & X2 & X3)|]; [|lia].
  destruct (find_dv ds (Z.of_nat b2)) as [(y & Y1 & Y2 & Y3)|]; [|lia].
  replace b1 with (Z.to_nat (dv_block x)) by lia. replace b2 with (Z.to_nat (dv_block y)) by lia.
  apply Wb; auto. intro; subst. lia.
Qed.

Lemma normal_equations : forall ts, (forall t, In t ts -> wf_eterm al ds t) ->
  exists H rhs, buildSystem base al (map code_of ts) = Ok (H, rhs) /\
  (forall d1 d2, In d1 ds -> In d2 ds -> dv_active d1 = true -> dv_active d2 = true ->
     (dv_block d1 <= dv_block d2)%Z -> forall i j, i < dv_dim d1 -> j < dv_dim d2 ->
     H (Z.to_nat (dv_block d1)) (Z.to_nat (dv_block d2)) i j =
     kmul (kmul (dv_scaling d1) (dv_scaling d2)) (lsum ts (fun t => JtWJ t d1 d2 i j))) /\
  (forall b1 b2 i j, b2 < b1 -> H b1 b2 i j = k0) /\
  (forall d, In d ds -> dv_active d = true -> forall k, k < dv_dim d ->
     rhs (base (Z.to_nat (dv_block d)) + k) =
     kopp (kmul (dv_scaling d) (lsum ts (fun t => JtWe t d k)))).
Proof.
  intros ts HT.
  destruct (buildTerms_all ts (fun _ _ => mzero, fun _ => k0) HT) as (ts' & E & F).
  assert (HT' : forall t', In t' ts' -> wf_term (sc_of ds) (dim_of ds) t').
  { clear E. induction F as [|t t' ts ts' E F IH]; intros x Hx; [destruct Hx|].
    destruct Hx as [<-|Hx].
    - destruct (evalTerm_ok t (HT t (or_introl eq_refl))) as (t2 & E2 & W2 & _). congruence.
    - apply IH; auto. intros; apply HT; right; auto. }
  pose proof (buildAll_spec base (sc_of ds) (dim_of ds) ts' (fun _ _ => mzero) (fun _ => k0) HT' wf_base_dim) as S.
  cbv zeta in S. destruct S as (S1 & S2 & S3).
  exists (fst (buildAll base ts' (fun _ _ => mzero, fun _ => k0))), (snd (buildAll base ts' (fun _ _ => mzero, fun _ => k0))).
  split; [rewrite <- surjective_pairing; exact E|].
  split; [|split].
  - intros d1 d2 Hd1 Hd2 Ha1 Ha2 Hle i j Hi Hj.
    pose proof (proj1 (proj2 W) d1 Hd1 Ha1). pose proof (proj1 (proj2 W) d2 Hd2 Ha2).
    rewrite S1 by lia. unfold mzero. rewrite k_add_0_l, <- lsum_mul_l. symmetry.
    destruct (find_dv_eq d1 Hd1 Ha1) as [_ ->]. destruct (find_dv_eq d2 Hd2 Ha2) as [_ ->].
    apply (lsum_Forall2 _ _ _ _ _ _ _ F). intros t t' Ht Et.
    destruct (evalTerm_ok t (HT t Ht)) as (t2 & E2 & W2 & A1 & A2 & A3 & A4 & A5).
    rewrite Et in E2. injection E2 as <-. f_equal. unfold JtWJ, quad, Wmat, Wt. rewrite A1, A3, A4.
    apply ksum_ext; intros p Hp. apply ksum_ext; intros q Hq. rewrite !A5 by auto. reflexivity.
  - intros. rewrite S2 by auto. reflexivity.
  - intros d Hd Ha k Hk. destruct (find_dv_eq d Hd Ha) as [Ed Es].
    rewrite S3 by (rewrite Ed; auto). rewrite Es.
    rewrite <- lsum_mul_l.
    replace (lsum ts' _) with (lsum ts (fun t => kmul (dv_scaling d) (JtWe t d k))); [ring|].
    apply (lsum_Forall2 _ _ _ _ _ _ _ F). intros t t' Ht Et.
    destruct (evalTerm_ok t (HT t Ht)) as (t2 & E2 & W2 & A1 & A2 & A3 & A4 & A5).
    rewrite Et in E2. injection E2 as <-. f_equal. unfold JtWe, Wmat, Wt. rewrite A1, A2, A3, A4.
    apply ksum_ext; intros p Hp. apply ksum_ext; intros q Hq. rewrite !A5 by auto. reflexivity.
Qed.

Lemma normal_equations_order : forall ts ts', Permutation ts ts' -> (forall t, In t ts -> wf_eterm al ds t) ->
  exists H rhs H' rhs', buildSystem base al (map code_of ts) = Ok (H, rhs) /\
  buildSystem base al (map code_of ts') = Ok (H', rhs') /\
  (forall d1 d2 i j, In d1 ds -> In d2 ds -> dv_active d1 = true -> dv_active d2 = true ->
     i < dv_dim d1 -> j < dv_dim d2 ->
     H (Z.to_nat (dv_block d1)) (Z.to_nat (dv_block d2)) i j = H' (Z.to_nat (dv_block d1)) (Z.to_nat (dv_block d2)) i j) /\
  (forall d k, In d ds -> dv_active d = true -> k < dv_dim d ->
     rhs (base (Z.to_nat (dv_block d)) + k) = rhs' (base (Z.to_nat (dv_block d)) + k)).
Proof.
  intros ts ts' HP HT.
  destruct (normal_equations ts HT) as (H & rhs & E & A1 & A2 & A3).
  destruct (normal_equations ts') as (H' & rhs' & E' & B1 & B2 & B3).
  { intros t Ht. apply HT. eapply Permutation_in; [apply Permutation_sym; eauto|auto]. }
  exists H, rhs, H', rhs'. repeat split; auto.
  - intros d1 d2 i j Hd1 Hd2 Ha1 Ha2 Hi Hj.
    pose proof (proj1 (proj2 W) d1 Hd1 Ha1). pose proof (proj1 (proj2 W) d2 Hd2 Ha2).
    destruct (Z.le_gt_cases (dv_block d1) (dv_block d2)).
    + rewrite A1, B1 by auto. f_equal. apply lsum_perm; auto.
    + rewrite A2, B2 by lia. reflexivity.
  - intros d k Hd Ha Hk. rewrite A3, B3 by auto. do 2 f_equal. apply lsum_perm; auto.
Qed.
End Normal.
End Proofs.
