(** * Proofs about error terms and gradients over any commutative ring *)
From Coq Require Import Arith Lia List ZArith NArith Bool.
From Verif Require Import Lib_Ring Lib_Res MatrixStack_Model MatrixStack_Spec MatrixStack_Proofs DesignVar_Base
  Jacobian_Model Jacobian_Spec Jacobian_Proofs Errors_Model Errors_Spec.
Import ListNotations.

Section Proofs.
Context {K : Type} {R : CRing K}.
Add Ring Kring : (@kring K R).
Open Scope K_scope.
Notation dvar := (dvar K).

(** ** chi-squared *)
Lemma gram_quad : forall n (A : mat K) (e : vec K),
  vdot n (mvmul n (mtr A) e) (mvmul n (mtr A) e) = quad n (mmul n A (mtr A)) e.
Proof.
  intros. unfold vdot, mvmul, quad, mmul, mtr.
  transitivity (ksum n (fun k => ksum n (fun i => ksum n (fun j => (e i * (A i k * A j k)) * e j)))).
  - apply ksum_ext; intros k _. rewrite <- ksum_mul_r. apply ksum_ext; intros i _.
    rewrite <- ksum_mul_l. apply ksum_ext; intros j _. ring.
  - rewrite ksum_swap. apply ksum_ext; intros i _. rewrite ksum_swap. apply ksum_ext; intros j _.
    rewrite <- ksum_mul_l, <- ksum_mul_r. reflexivity.
Qed.
Lemma quad_ext : forall n (W W' : mat K) e, meq n n W W' -> quad n W e = quad n W' e.
Proof. intros. unfold quad. apply ksum_ext; intros. apply ksum_ext; intros. rewrite H by auto. reflexivity. Qed.

Lemma chi2_is_quad : forall (t : @fterm K), evaluateChiSquaredError t = quad (f_dim t) (invR t) (f_error t).
Proof. intros. apply gram_quad. Qed.

Lemma raw_is_quad : forall (t : @fterm K) e,
  getRawSquaredError (updateRawSquaredError e t) = quad (f_dim t) (mmul (f_dim t) (f_S t) (mtr (f_S t))) e.
Proof. intros. unfold getRawSquaredError, updateRawSquaredError; cbn [f_sq]. rewrite chi2_is_quad. reflexivity. Qed.

Lemma raw_after_setInvR : forall (sqrtm : mat K -> mat K) W (t : @fterm K) e,
  meq (f_dim t) (f_dim t) (mmul (f_dim t) (sqrtm W) (mtr (sqrtm W))) W ->
  getRawSquaredError (updateRawSquaredError e (setInvR sqrtm W t)) = quad (f_dim t) W e /\
  meq (f_dim t) (f_dim t) (invR (updateRawSquaredError e (setInvR sqrtm W t))) W.
Proof. intros. split; [|exact H]. rewrite raw_is_quad. apply quad_ext. exact H. Qed.

Lemma expr_is_quad_of_transpose : forall (t : @fterm K) e,
  getRawSquaredError (updateRawSquaredError_expr e t) = quad (f_dim t) (mmul (f_dim t) (mtr (f_S t)) (f_S t)) e.
Proof.
  intros. unfold getRawSquaredError, updateRawSquaredError_expr; cbn [f_sq f_dim f_S setError].
  exact (gram_quad (f_dim t) (mtr (f_S t)) e).
Qed.

(** ** directional derivatives *)
Lemma Jdir_app : forall (cs1 cs2 : list (@contribution K)) dir i, Jdir (cs1 ++ cs2) dir i = Jdir cs1 dir i + Jdir cs2 dir i.
Proof. intros; unfold Jdir; apply lsum_app. Qed.

(** a bottom factor multiplies all contributions *)
Lemma prod_cols_bottom : forall n fs r c (M : mat K), c = n -> prod_cols n (fs ++ [FMat r c M]) = prod_cols n fs.
Proof. induction fs as [|[? ? ?|?] fs IH]; intros; cbn; auto. Qed.

Lemma prod_mat_bottom : forall n fs r (M : mat K) i j,
  (i < n)%nat -> (forall f, In f [@FMat K r n M] -> True) -> (j < prod_cols n fs)%nat ->
  prod_mat n (fs ++ [FMat r n M]) i j = mmul n M (prod_mat n fs) i j.
Proof.
  induction fs as [|[r' c' M'|a] fs IH]; intros r M i j Hi Hf Hj.
  - cbn in *. transitivity (M i j). { apply (mmul_id_l n n M); auto. } symmetry. apply (mmul_id_r n n M); auto.
  - cbn [app prod_mat]. rewrite prod_cols_bottom by auto.
    rewrite <- mmul_assoc_pt. unfold mmul at 1 3. apply ksum_ext; intros k Hk. rewrite IH by auto. reflexivity.
  - cbn [app prod_mat prod_cols] in *. rewrite mmul_scale_r. unfold mscale. rewrite IH by auto. reflexivity.
Qed.

Definition scaled_by (n : nat) (M : mat K) (c c' : @contribution K) : Prop :=
  fst c' = fst c /\ forall i k, (i < n)%nat -> (k < dv_dim (fst c))%nat -> snd c' i k = mmul n M (snd c) i k.

Lemma lockstep : forall n al fs evs cs fs', cruns n al fs evs cs fs' ->
  forall r M cs' gs', cruns n al (fs ++ [@FMat K r n M]) evs cs' gs' ->
  Forall2 (scaled_by n M) cs cs' /\ gs' = fs' ++ [FMat r n M].
Proof.
  intros n al fs evs cs fs' H. induction H; intros r0 M0 cs' gs' H'.
  - inversion H'; subst. split; auto.
  - inversion H'; subst. match goal with Y : cruns _ _ (?f :: fs ++ _) evs _ _ |- _ => eapply (IHcruns r0 M0); exact Y end.
  - cbn [app] in H'. inversion H'; subst. eauto.
  - inversion H'; subst. match goal with Y : cruns _ _ (fs ++ _) evs _ _ |- _ => destruct (IHcruns _ _ _ _ Y) as [F E] end. split; auto. constructor; auto.
    split; [reflexivity|]. cbn [fst snd]. intros i k Hi Hk.
    rewrite <- mmul_assoc_pt. unfold mmul at 1 3. apply ksum_ext; intros p Hp.
    rewrite prod_mat_bottom by auto. reflexivity.
  - inversion H'; subst. match goal with Y : cruns _ _ (fs ++ _) evs _ _ |- _ => destruct (IHcruns _ _ _ _ Y) as [F E] end. split; auto. constructor; auto.
    split; [reflexivity|]. cbn [fst snd]. intros i k Hi Hk. apply prod_mat_bottom; auto. congruence.
Qed.

Lemma lockstep_scal : forall n al fs evs cs fs', cruns n al fs evs cs fs' ->
  forall a cs' gs', cruns n al (fs ++ [@FScal K a]) evs cs' gs' ->
  Forall2 (scaled_by n (mscale a mid)) cs cs' /\ gs' = fs' ++ [FScal a].
Proof.
  assert (PC : forall n fs a, prod_cols n (fs ++ [@FScal K a]) = prod_cols n fs).
  { induction fs as [|[? ? ?|?] fs IH]; intros; cbn; auto. }
  assert (PM : forall n fs a i j, prod_mat n (fs ++ [@FScal K a]) i j = a * prod_mat n fs i j).
  { induction fs as [|[r' c' M'|b] fs IH]; intros; cbn [app prod_mat]; auto.
    - rewrite PC. unfold mmul. rewrite <- ksum_mul_l. apply ksum_ext; intros. rewrite IH. ring.
    - unfold mscale. rewrite IH. ring. }
  assert (SC : forall n a (X : mat K) i k, (i < n)%nat -> mmul n (mscale a mid) X i k = a * X i k).
  { intros. rewrite mmul_scale_l. f_equal. apply (mmul_id_l n (S k) X); auto. }
  intros n al fs evs cs fs' H. induction H; intros a0 cs' gs' H'.
  - inversion H'; subst. split; auto.
  - inversion H'; subst. match goal with Y : cruns _ _ (?f :: fs ++ _) evs _ _ |- _ => eapply (IHcruns a0); exact Y end.
  - cbn [app] in H'. inversion H'; subst. eauto.
  - inversion H'; subst. match goal with Y : cruns _ _ (fs ++ _) evs _ _ |- _ => destruct (IHcruns _ _ _ Y) as [F E] end. split; auto. constructor; auto.
    split; [reflexivity|]. cbn [fst snd]. intros i k Hi Hk. rewrite SC by auto.
    unfold mmul. rewrite <- ksum_mul_l. try rewrite PC. apply ksum_ext; intros p Hp. rewrite PM. ring.
  - inversion H'; subst. match goal with Y : cruns _ _ (fs ++ _) evs _ _ |- _ => destruct (IHcruns _ _ _ Y) as [F E] end. split; auto. constructor; auto.
    split; [reflexivity|]. cbn [fst snd]. intros i k Hi Hk. rewrite SC, PM by auto. reflexivity.
Qed.

Lemma Jdir_scaled : forall n M cs cs' dir i, (i < n)%nat -> Forall2 (scaled_by n M) cs cs' ->
  Jdir cs' dir i = ksum n (fun k => M i k * Jdir cs dir k).
Proof.
  intros n M cs cs' dir i Hi H. induction H as [|c c' cs cs' [E HM] _ IH].
  - unfold Jdir; cbn. symmetry. apply ksum_zero. intros; ring.
  - change (c :: cs) with ([c] ++ cs). change (c' :: cs') with ([c'] ++ cs').
    rewrite Jdir_app, IH.
    rewrite (ksum_ext n (fun k => M i k * Jdir ([c] ++ cs) dir k) (fun k => M i k * Jdir [c] dir k + M i k * Jdir cs dir k)).
    2:{ intros. rewrite Jdir_app. ring. }
    rewrite ksum_add. f_equal. unfold Jdir; cbn [lsum]. rewrite E.
    destruct (dv_active (fst c)).
    + transitivity (ksum (dv_dim (fst c)) (fun k => mmul n M (snd c) i k * dir (Z.to_nat (dv_col (fst c)) + k)%nat)).
      { rewrite k_add_0_r. apply ksum_ext; intros. rewrite HM by auto. reflexivity. }
      unfold mmul. rewrite (ksum_ext _ _ (fun k => ksum n (fun p => M i p * (snd c p k * dir (Z.to_nat (dv_col (fst c)) + k)%nat)))).
      2:{ intros. rewrite <- ksum_mul_r. apply ksum_ext; intros. ring. }
      rewrite ksum_swap. apply ksum_ext; intros. rewrite ksum_mul_l. ring.
    + rewrite k_add_0_r. symmetry. apply ksum_zero. intros; ring.
Qed.

(** ** the containers represent the directional derivative *)
Lemma window_sum : forall n cb c (f : nat -> nat -> K), (cb + c <= n)%nat ->
  ksum n (fun j => if (cb <=? j) && (j <? cb + c) then f (j - cb)%nat j else 0) = ksum c (fun k => f k (cb + k)%nat).
Proof.
  intros. replace n with (cb + (c + (n - cb - c)))%nat by lia. rewrite ksum_split, ksum_split.
  rewrite (ksum_zero cb). 2:{ intros. rewrite (proj2 (Nat.leb_gt cb i)) by lia. reflexivity. }
  rewrite (ksum_zero (n - cb - c)).
  2:{ intros. rewrite (proj2 (Nat.leb_le _ _)), (proj2 (Nat.ltb_ge _ _)) by lia. reflexivity. }
  rewrite k_add_0_l, k_add_0_r. apply ksum_ext; intros.
  rewrite (proj2 (Nat.leb_le _ _)), (proj2 (Nat.ltb_lt _ _)) by lia. cbn [andb]. f_equal; lia.
Qed.


(** dense container started at any content *)
Definition deL (n cols : nat) (M0 : mat K) (cs : list (@contribution K)) (s : @dense K) : Prop :=
  de_rows s = n /\ de_cols s = cols /\
  exists G : mat K, (forall i j, (i < n)%nat -> de_mat s i j = M0 i j + G i j) /\
  forall dir i, (i < n)%nat -> ksum cols (fun j => G i j * dir j) = Jdir cs dir i.

Lemma deL_run : forall n cols al evs cs fs M0,
  (0 < al)%nat -> (N.of_nat n < 65536)%N -> cruns n al [] evs cs fs -> wf_dvs (event_dvs evs) ->
  in_cols cols (event_dvs evs) ->
  exists c, jc_run _ de_addJ al (mkJC (ms_init n 100 9) (mkDense n cols M0)) (map cop_of evs) = Ok c /\
    deL n cols M0 cs (jc_store c).
Proof.
  intros n cols al evs cs fs M0 Hal Hn H W WC.
  destruct (generic_run _ de_addJ n al (event_dvs evs) Hal (deL n cols M0) W) with (fs := @nil (@factor K)) (evs := evs) (cs := cs)
    (fs' := fs) (c := mkJC (ms_init (K:=K) n 100 9) (mkDense n cols M0)) (cs0 := @nil (@contribution K))
    as (c & E & I & HP); auto.
  - intros cs0 st d J C (P1 & P2 & G & P3 & P4) Hd Ha Hr Hc HJ.
    destruct (WC d Hd Ha) as [C1 C2]. unfold de_addJ. rewrite P1, Hr, Nat.eqb_refl. cbn [negb].
    rewrite (proj2 (Z.ltb_ge (dv_col d) 0)) by lia. rewrite P2, Hc.
    rewrite (proj2 (Z.ltb_ge (Z.of_nat cols) _)) by lia. cbn [orb].
    eexists; split; [reflexivity|]. split; [reflexivity|]. split; [reflexivity|]. cbn [de_mat].
    set (cb := Z.to_nat (dv_col d)).
    exists (fun i j => G i j + (if (cb <=? j) && (j <? cb + dv_dim d) then d_at J i (j - cb)%nat else 0)). split.
    + intros i j Hi. rewrite (proj2 (Nat.ltb_lt i n) Hi), andb_true_r. rewrite P3 by auto.
      destruct ((cb <=? j) && (j <? cb + dv_dim d)); ring.
    + intros dir i Hi. rewrite Jdir_app, <- P4 by auto.
      rewrite (ksum_ext cols _ (fun j => G i j * dir j + (if (cb <=? j) && (j <? cb + dv_dim d) then d_at J i (j - cb)%nat * dir j else 0))).
      2:{ intros. destruct ((cb <=? i0) && (i0 <? cb + dv_dim d)); ring. }
      rewrite ksum_add. f_equal. rewrite (window_sum cols cb (dv_dim d) (fun k j => d_at J i k * dir j)) by lia.
      unfold Jdir; cbn [lsum fst snd]. rewrite Ha, k_add_0_r. apply ksum_ext; intros. rewrite HJ by auto. reflexivity.
  - intros cs0 st d C (P1 & P2 & G & P3 & P4) Hd Ha. split; [|split]; auto. exists G. split; auto.
    intros. rewrite Jdir_app, <- P4 by auto. unfold Jdir; cbn [lsum fst]. rewrite Ha. ring.
  - apply incl_refl.
  - apply init_inv; auto.
  - split; [reflexivity|]. split; [reflexivity|]. exists mzero. split; intros; cbn.
    + unfold mzero; ring. 
    + apply ksum_zero. intros; unfold mzero; ring.
  - exists c; auto.
Qed.

(** sparse container *)

Lemma spdir_addJ : forall m d (J : @dmat K) m' dir i, sp_addJ m d J = Ok m' ->
  (forall e, In e m -> dv_id (fst e) = dv_id d -> fst e = d) -> 
  spdir m' dir i = spdir m dir i + ksum (d_cols J) (fun k => d_at J i k * dir (Z.to_nat (dv_col d) + k)%nat).
Proof.
  induction m as [|[d1 M1] m IH]; intros d J m' dir i E Hid; cbn [sp_addJ] in E.
  - injection E as <-. unfold spdir; cbn. ring.
  - destruct (dv_block d <? dv_block d1)%Z.
    { injection E as <-. unfold spdir; cbn [lsum fst snd]. ring. }
    destruct (dv_block d1 <? dv_block d)%Z.
    { destruct (sp_addJ m d J) as [t'| |] eqn:E1; cbn in E; try discriminate. injection E as <-.
      specialize (IH d J t' dir i E1 (fun e He => Hid e (or_intror He))).
      unfold spdir in *; cbn [lsum fst snd]. rewrite IH. ring. }
    destruct (Nat.eqb_spec (dv_id d) (dv_id d1)); cbn [negb] in E; [|discriminate].
    destruct (same_dims M1 J) eqn:Es; [|discriminate]. injection E as <-.
    assert (d1 = d) by (apply (Hid (d1, M1)); [left; auto|auto]). subst d1.
    unfold same_dims in Es. apply andb_true_iff in Es. destruct Es as [_ Es]. apply Nat.eqb_eq in Es.
    unfold spdir; cbn [lsum fst snd dadd d_cols]. rewrite <- Es.
    rewrite (ksum_ext _ _ (fun k => d_at M1 i k * dir (Z.to_nat (dv_col d) + k)%nat + d_at J i k * dir (Z.to_nat (dv_col d) + k)%nat)).
    2:{ intros. unfold dadd, madd; cbn [d_at]; ring. }
    rewrite ksum_add. ring.
Qed.

Lemma spdir_run : forall n al evs cs fs,
  (0 < al)%nat -> (N.of_nat n < 65536)%N -> cruns n al [] evs cs fs -> wf_dvs (event_dvs evs) ->
  exists c, jc_run _ sp_addJ al (sp_init n) (map cop_of evs) = Ok c /\
    spP n (event_dvs evs) cs (jc_store c) /\
    forall dir i, (i < n)%nat -> spdir (jc_store c) dir i = Jdir cs dir i.
Proof.
  intros n al evs cs fs Hal Hn H W.
  pose (P := fun (cs : list (@contribution K)) (m : @jmap K) => spP n (event_dvs evs) cs m /\
     forall dir i, (i < n)%nat -> spdir m dir i = Jdir cs dir i).
  destruct (generic_run _ sp_addJ n al (event_dvs evs) Hal P W) with (fs := @nil (@factor K)) (evs := evs) (cs := cs)
    (fs' := fs) (c := sp_init (K:=K) n) (cs0 := @nil (@contribution K)) as (c & E & I & HP); auto.
  - intros cs0 st d J C (P1 & P2) Hd Ha Hr Hc HJ.
    destruct (spP_add n _ W cs0 st d J C P1 Hd Ha Hr Hc HJ) as (st' & E & P1').
    exists st'. split; auto. split; auto. intros dir i Hi.
    rewrite (spdir_addJ _ _ _ _ dir i E).
    + rewrite P2, Jdir_app by auto. f_equal. unfold Jdir; cbn [lsum fst snd]. rewrite Ha, Hc, k_add_0_r.
      apply ksum_ext; intros. rewrite HJ by auto. reflexivity.
    + intros [d' M'] He Eid. cbn in *. destruct P1 as (Q1 & _ & Q3 & _).
      destruct (Q3 d' M' He) as (_ & Q & _). apply (proj1 W); auto.
  - intros cs0 st d C (P1 & P2) Hd Ha. split.
    + apply spP_inactive; auto.
    + intros. rewrite Jdir_app, P2 by auto. unfold Jdir; cbn [lsum fst]. rewrite Ha. ring.
  - apply incl_refl.
  - apply init_inv; auto.
  - split. apply spP_nil. intros. reflexivity.
  - destruct HP as [HP1 HP2]. exists c; auto.
Qed.

(** adding row blocks *)
Lemma row_blocks_sum : forall (u : (dvar * @dmat K) -> vec K) (cols : nat) (m : list (dvar * @dmat K)) J,
  (forall e, In e m -> (Z.to_nat (dv_col (fst e)) + d_cols (snd e) <= cols)%nat) ->
  exists g : vec K,
    (forall j, fold_left (fun J e => row_block_add J (Z.to_nat (dv_col (fst e))) (d_cols (snd e)) (u e)) m J j = J j + g j) /\
    forall dir, ksum cols (fun j => g j * dir j) =
      lsum m (fun e => ksum (d_cols (snd e)) (fun k => u e k * dir (Z.to_nat (dv_col (fst e)) + k)%nat)).
Proof.
  intros u cols m. induction m as [|e m IH]; intros J Hc.
  - exists (fun _ => 0). split; intros; cbn. ring. apply ksum_zero; intros; ring.
  - cbn [fold_left lsum].
    destruct (IH (row_block_add J (Z.to_nat (dv_col (fst e))) (d_cols (snd e)) (u e))) as (g & G1 & G2).
    { intros; apply Hc; right; auto. }
    set (cb := Z.to_nat (dv_col (fst e))) in *.
    exists (fun j => (if (cb <=? j) && (j <? cb + d_cols (snd e)) then u e (j - cb)%nat else 0) + g j). split.
    + intros j. rewrite G1. unfold row_block_add. destruct ((cb <=? j) && (j <? cb + d_cols (snd e))); ring.
    + intros dir. rewrite (ksum_ext cols _ (fun j => (if (cb <=? j) && (j <? cb + d_cols (snd e)) then u e (j - cb)%nat * dir j else 0) + g j * dir j)).
      2:{ intros. destruct ((cb <=? i) && (i <? cb + d_cols (snd e))); ring. }
      rewrite ksum_add, G2. f_equal.
      apply (window_sum cols cb (d_cols (snd e)) (fun k j => u e k * dir j)).
      apply Hc; left; reflexivity.
Qed.

Lemma below_events : forall (f : @factor K) evs, event_dvs (below f evs) = event_dvs evs.
Proof. intros. unfold below, event_dvs. cbn. rewrite flat_map_app. cbn. apply app_nil_r. Qed.

Lemma cruns_app_inv : forall n al fs evs1 evs2 cs fs', cruns n al fs (evs1 ++ evs2) cs fs' ->
  exists cs1 cs2 gs, cs = cs1 ++ cs2 /\ cruns n al fs evs1 cs1 gs /\ @cruns K R n al gs evs2 cs2 fs'.
Proof.
  intros n al fs evs1; revert fs. induction evs1 as [|e evs1 IH]; intros fs evs2 cs fs' H.
  - exists [], cs, fs. cbn. split; auto. split; auto. constructor.
  - cbn in H. inversion H; subst.
    + match goal with HH : cruns _ _ _ (evs1 ++ evs2) _ _ |- _ => destruct (IH _ _ _ _ HH) as (a & b & g & -> & A & B) end. exists a, b, g. split; auto. split; auto. constructor; auto.
    + match goal with HH : cruns _ _ _ (evs1 ++ evs2) _ _ |- _ => destruct (IH _ _ _ _ HH) as (a & b & g & -> & A & B) end. exists a, b, g. split; auto. split; auto. constructor; auto.
    + match goal with HH : cruns _ _ _ (evs1 ++ evs2) _ _ |- _ => destruct (IH _ _ _ _ HH) as (a & b & g & -> & A & B) end.
      eexists (_ :: a), b, g. split; [reflexivity|]. split; auto. constructor; auto.
    + match goal with HH : cruns _ _ _ (evs1 ++ evs2) _ _ |- _ => destruct (IH _ _ _ _ HH) as (a & b & g & -> & A & B) end.
      eexists (_ :: a), b, g. split; [reflexivity|]. split; auto. constructor; auto.
Qed.

Lemma below_mat : forall n al (M : mat K) evs cs fs' cs' gs', cruns n al [] evs cs fs' ->
  cruns n al [] (below (FMat n n M) evs) cs' gs' -> Forall2 (scaled_by n M) cs cs'.
Proof.
  intros. unfold below in H0. inversion H0; subst.
  match goal with Y : cruns _ _ _ (evs ++ _) _ _ |- _ => destruct (cruns_app_inv _ _ _ _ _ _ _ Y) as (a & b & g & -> & A & B) end.
  inversion B; subst. match goal with Y : cruns _ _ _ [] _ _ |- _ => inversion Y; subst end. rewrite app_nil_r. eapply lockstep with (fs := []); eauto.
Qed.
Lemma below_scal : forall n al (a : K) evs cs fs' cs' gs', cruns n al [] evs cs fs' ->
  cruns n al [] (below (FScal a) evs) cs' gs' -> Forall2 (scaled_by n (mscale a mid)) cs cs'.
Proof.
  intros. unfold below in H0. inversion H0; subst.
  match goal with Y : cruns _ _ _ (evs ++ _) _ _ |- _ => destruct (cruns_app_inv _ _ _ _ _ _ _ Y) as (x & b & g & -> & A & B) end.
  inversion B; subst. match goal with Y : cruns _ _ _ [] _ _ |- _ => inversion Y; subst end. rewrite app_nil_r. eapply lockstep_scal with (fs := []); eauto.
Qed.

Lemma weighted_calls_events : forall ksqrt useM (t : @fterm K) evs,
  weighted_calls ksqrt useM t (map cop_of evs) =
  map cop_of (below (FMat (f_dim t) (f_dim t) (mscale (sqrtWeight ksqrt useM t) (mtr (f_S t)))) evs).
Proof. intros. unfold weighted_calls, below, weightFactor. cbn [map cop_of]. rewrite map_app. reflexivity. Qed.
Lemma ns_calls_events : forall useM (t : @nterm K) evs,
  ns_calls useM t (map cop_of evs) = map cop_of (below (FScal (ns_factor useM t)) evs).
Proof. intros. unfold ns_calls, below. cbn [map cop_of]. rewrite map_app. reflexivity. Qed.

(** ** the gradient of one squared term along a direction *)
Section One.
Variable ksqrt : K -> K.

Lemma weighted_jacobian_dir : forall useM (t : @fterm K) al evs cs fs cs' gs dir i,
  cruns (f_dim t) al [] evs cs fs ->
  cruns (f_dim t) al [] (below (FMat (f_dim t) (f_dim t) (mscale (sqrtWeight ksqrt useM t) (mtr (f_S t)))) evs) cs' gs ->
  (i < f_dim t)%nat ->
  Jdir cs' dir i = sqrtWeight ksqrt useM t * mvmul (f_dim t) (mtr (f_S t)) (Jdir cs dir) i.
Proof.
  intros. rewrite (Jdir_scaled _ _ _ _ dir i H1 (below_mat _ _ _ _ _ _ _ _ H H0)).
  unfold mvmul. rewrite <- ksum_mul_l. apply ksum_ext; intros. unfold mscale. ring.
Qed.

Lemma bilinear : forall n (A : mat K) (u v : vec K),
  ksum n (fun i => mvmul n (mtr A) u i * mvmul n (mtr A) v i) =
  ksum n (fun i => ksum n (fun j => (u i * mmul n A (mtr A) i j) * v j)).
Proof.
  intros. unfold mvmul, mmul, mtr.
  transitivity (ksum n (fun k => ksum n (fun i => ksum n (fun j => (u i * (A i k * A j k)) * v j)))).
  - apply ksum_ext; intros k _. rewrite <- ksum_mul_r. apply ksum_ext; intros i _.
    rewrite <- ksum_mul_l. apply ksum_ext; intros j _. ring.
  - rewrite ksum_swap. apply ksum_ext; intros i _. rewrite ksum_swap. apply ksum_ext; intros j _.
    rewrite <- ksum_mul_l, <- ksum_mul_r. reflexivity.
Qed.

Lemma squared_term_gradient : forall useM dense_ numOpt al (t : @fterm K) evs cs fs cs' gs,
  (0 < al)%nat -> (N.of_nat (f_dim t) < 65536)%N ->
  cruns (f_dim t) al [] evs cs fs ->
  cruns (f_dim t) al [] (below (FMat (f_dim t) (f_dim t) (mscale (sqrtWeight ksqrt useM t) (mtr (f_S t)))) evs) cs' gs ->
  wf_dvs (event_dvs evs) -> in_cols numOpt (event_dvs evs) ->
  exists g : vec K,
    (forall J, exists J', addGradientS ksqrt al useM dense_ numOpt t (map cop_of evs) J = Ok J' /\
       forall j, (j < numOpt)%nat -> J' j = J j + g j) /\
    forall dir, ksum numOpt (fun j => g j * dir j) =
      (1 + 1) * (sqrtWeight ksqrt useM t * sqrtWeight ksqrt useM t) *
      ksum (f_dim t) (fun i => ksum (f_dim t) (fun j => (f_error t i * invR t i j) * Jdir cs dir j)).
Proof.
  intros useM dense_ numOpt al t evs cs fs cs' gs Hal Hn H H' W WC.
  set (n := f_dim t) in *. set (sw := sqrtWeight ksqrt useM t) in *.
  set (Ft := FMat n n (mscale sw (mtr (f_S t)))) in *.
  set (ev := fun i => getWeightedError ksqrt useM t i * (1 + 1)).
  assert (Hfin : forall dir, ksum n (fun i => ev i * Jdir cs' dir i) =
    (1 + 1) * (sw * sw) * ksum n (fun i => ksum n (fun j => (f_error t i * invR t i j) * Jdir cs dir j))).
  { intros dir. unfold invR. fold n. rewrite <- bilinear, <- ksum_mul_l. apply ksum_ext; intros i Hi.
    rewrite (weighted_jacobian_dir useM t al evs cs fs cs' gs dir i H H' Hi).
    unfold ev, getWeightedError. fold n sw. ring. }
  assert (W' : wf_dvs (event_dvs (below Ft evs))) by (rewrite below_events; exact W).
  assert (WC' : in_cols numOpt (event_dvs (below Ft evs))) by (rewrite below_events; exact WC).
  unfold addGradientS. rewrite weighted_calls_events. fold n sw Ft ev.
  destruct dense_.
  - destruct (deL_run n numOpt al _ cs' gs mzero Hal Hn H' W' WC') as (c & E & (_ & _ & G & G1 & G2)).
    unfold de_init. rewrite E. cbn [bind].
    exists (rowmul n ev G). split.
    + intros J. eexists; split; [reflexivity|]. intros j Hj. cbv beta. rewrite (proj2 (Nat.ltb_lt _ _) Hj). f_equal.
      unfold rowmul. apply ksum_ext; intros i Hi. rewrite G1 by auto. unfold mzero. ring.
    + intros dir. rewrite <- Hfin. unfold rowmul.
      transitivity (ksum numOpt (fun j => ksum n (fun i => ev i * (G i j * dir j)))).
      { apply ksum_ext; intros. rewrite <- ksum_mul_r. apply ksum_ext; intros. ring. }
      rewrite ksum_swap. apply ksum_ext; intros i Hi. rewrite ksum_mul_l, G2 by auto. reflexivity.
  - destruct (spdir_run n al _ cs' gs Hal Hn H' W') as (c & E & P & S).
    rewrite E. cbn [bind].
    destruct P as (Q1 & _ & Q3 & _).
    assert (HB : forall e, In e (jc_store c) -> (Z.to_nat (dv_col (fst e)) + d_cols (snd e) <= numOpt)%nat).
    { intros [d M] He. destruct (Q3 d M He) as (A1 & A2 & A3 & A4 & _). cbn. rewrite A4.
      destruct (WC' d (Q1 _ A2) A1). lia. }
    destruct (row_blocks_sum (fun e => rowmul n ev (d_at (snd e))) numOpt (jc_store c) (fun _ => 0) HB) as (g & G1 & G2).
    exists g. split.
    + intros J. eexists; split; [reflexivity|]. intros j Hj.
      destruct (row_blocks_sum (fun e => rowmul n ev (d_at (snd e))) numOpt (jc_store c) J HB) as (g' & G1' & G2').
      rewrite G1'. f_equal.
      assert (Q : forall dir, ksum numOpt (fun j => g' j * dir j) = ksum numOpt (fun j => g j * dir j)) by (intros; rewrite G2', G2; reflexivity).
      specialize (Q (fun i => delta i j)). cbv beta in Q. rewrite !ksum_delta_r in Q by auto. exact Q.
    + intros dir. rewrite G2, <- Hfin.
      transitivity (ksum n (fun i => ev i * spdir (jc_store c) dir i)).
      2:{ apply ksum_ext; intros. rewrite S by auto. reflexivity. }
      unfold spdir, rowmul.
      transitivity (lsum (jc_store c) (fun e => ksum n (fun i => ev i * ksum (d_cols (snd e)) (fun k => d_at (snd e) i k * dir (Z.to_nat (dv_col (fst e)) + k)%nat)))).
      { apply lsum_ext; intros e _.
        transitivity (ksum (d_cols (snd e)) (fun k => ksum n (fun i => ev i * (d_at (snd e) i k * dir (Z.to_nat (dv_col (fst e)) + k)%nat)))).
        { apply ksum_ext; intros. rewrite <- ksum_mul_r. apply ksum_ext; intros. ring. }
        rewrite ksum_swap. apply ksum_ext; intros. rewrite ksum_mul_l. reflexivity. }
      rewrite lsum_ksum_swap. apply ksum_ext; intros. rewrite lsum_mul_l. reflexivity.
Qed.

Lemma nonsquared_term_gradient : forall useM dense_ numOpt al (t : @nterm K) evs cs fs cs' gs,
  (0 < al)%nat ->
  cruns 1 al [] evs cs fs -> cruns 1 al [] (below (FScal (ns_factor useM t)) evs) cs' gs ->
  wf_dvs (event_dvs evs) -> in_cols numOpt (event_dvs evs) ->
  exists g : vec K,
    (forall J, exists J', addGradientNS al useM dense_ numOpt t (map cop_of evs) J = Ok J' /\
       forall j, (j < numOpt)%nat -> J' j = J j + g j) /\
    forall dir, ksum numOpt (fun j => g j * dir j) = ns_factor useM t * Jdir cs dir O.
Proof.
  intros useM dense_ numOpt al t evs cs fs cs' gs Hal H H' W WC.
  set (a := ns_factor useM t) in *.
  assert (H1 : (0 < 1)%nat) by lia. assert (Hn : (N.of_nat 1 < 65536)%N) by (cbn; lia).
  assert (Hfin : forall dir, Jdir cs' dir O = a * Jdir cs dir O).
  { intros. rewrite (Jdir_scaled _ _ _ _ dir O H1 (below_scal _ _ _ _ _ _ _ _ H H')).
    cbn. unfold mscale, mid. rewrite delta_refl. ring. }
  assert (W' : wf_dvs (event_dvs (below (FScal a) evs))) by (rewrite below_events; exact W).
  assert (WC' : in_cols numOpt (event_dvs (below (FScal a) evs))) by (rewrite below_events; exact WC).
  unfold addGradientNS. rewrite ns_calls_events. fold a.
  destruct dense_.
  - assert (Hex : forall J, exists c, jc_run _ de_addJ al (mkJC (ms_init 1 100 9) (mkDense 1 numOpt (fun _ => J))) (map cop_of (below (FScal a) evs)) = Ok c /\
        exists g : vec K, (forall j, de_mat (jc_store c) O j = J j + g j) /\ forall dir, ksum numOpt (fun j => g j * dir j) = Jdir cs' dir O).
    { intros J. destruct (deL_run 1 numOpt al _ cs' gs (fun _ => J) Hal Hn H' W' WC') as (c & E & (_ & _ & G & G1 & G2)).
      exists c. split; auto. exists (G O). split; intros; auto. }
    destruct (Hex (fun _ => 0)) as (c0 & _ & g & _ & G2). exists g. split.
    + intros J. destruct (Hex J) as (c & E & g' & G1' & G2'). rewrite E. cbn [bind]. eexists; split; [reflexivity|].
      intros j Hj. cbn. rewrite G1'. f_equal.
      assert (Q : forall dir, ksum numOpt (fun j => g' j * dir j) = ksum numOpt (fun j => g j * dir j)) by (intros; rewrite G2', G2; reflexivity).
      specialize (Q (fun i => delta i j)). cbv beta in Q. rewrite !ksum_delta_r in Q by auto. exact Q.
    + intros dir. rewrite G2. apply Hfin.
  - destruct (spdir_run 1 al _ cs' gs Hal Hn H' W') as (c & E & P & S).
    rewrite E. cbn [bind]. destruct P as (Q1 & _ & Q3 & _).
    assert (HB : forall e, In e (jc_store c) -> (Z.to_nat (dv_col (fst e)) + d_cols (snd e) <= numOpt)%nat).
    { intros [d M] He. destruct (Q3 d M He) as (A1 & A2 & A3 & A4 & _). cbn. rewrite A4.
      destruct (WC' d (Q1 _ A2) A1). lia. }
    destruct (row_blocks_sum (fun e => d_at (snd e) O) numOpt (jc_store c) (fun _ => 0) HB) as (g & G1 & G2).
    exists g. split.
    + intros J. eexists; split; [reflexivity|]. intros j Hj.
      destruct (row_blocks_sum (fun e => d_at (snd e) O) numOpt (jc_store c) J HB) as (g' & G1' & G2').
      rewrite G1'. f_equal.
      assert (Q : forall dir, ksum numOpt (fun j => g' j * dir j) = ksum numOpt (fun j => g j * dir j)) by (intros; rewrite G2', G2; reflexivity).
      specialize (Q (fun i => delta i j)). cbv beta in Q. rewrite !ksum_delta_r in Q by auto. exact Q.
    + intros dir. rewrite G2, <- Hfin, <- S by auto. reflexivity.
Qed.
End One.
End Proofs.
