(** * Jacobians of scalar expressions in the container; series branch; generic scalars (proofs only) *)
From Coq Require Import Arith Lia List ZArith NArith Bool Reals Lra.
From Verif Require Import Lib_Ring Lib_Real Lib_Res MatrixStack_Model MatrixStack_Spec DesignVar_Base Jacobian_Model Jacobian_Spec Expr_Base Scalar_Model Scalar_Spec Scalar_Calc Scalar_Proofs.
Import ListNotations.
Local Open Scope R_scope.

Lemma stack_room_room : forall n al w depth, stack_room n al w depth -> @room R n al w depth [].
Proof. intros n al w depth (A & B & C). split; auto. Qed.
Lemma entry_R : forall st d i j, jacobian_entry st d i j = @entry R RRing st d i j.
Proof. intros. reflexivity. Qed.

Lemma scalar_jacobian : forall e s al, swf e -> sdom e s -> (0 < al)%nat -> stack_room 1 al (swidth e) (sdepth e) -> wf_dvs (sdvs e) ->
  exists v ops c, sval e s = Ok v /\ sjac e s = Ok ops /\ jc_run _ sp_addJ al (sp_init 1) ops = Ok c /\
    forall d j, In d (sdvs e) -> dv_active d = true -> (j < dv_dim d)%nat -> partial (sval e) s d j (jacobian_entry (jc_store c) d 0 j).
Proof.
  intros e s al W Dm Ha Ro Wd. destruct (proj1 (expr_main s (swidth e)) e W Dm (le_n _)) as (D & v & ops & (Ev & Ej & C & I1 & P)).
  destruct (contributes_entry 1 (swidth e) (sdepth e) ops D al (sdvs e) C Ha eq_refl (stack_room_room _ _ _ _ Ro) Wd I1) as (c & E & _ & En).
  exists v, ops, c. repeat (split; [assumption|]). intros d j Hd Ad Hj. rewrite entry_R, En by auto. apply P.
Qed.
Lemma vector_jacobian : forall e s al, vwf e -> vdom e s -> (0 < al)%nat -> stack_room (vsize e) al (vwidth e) (vdepth e) -> wf_dvs (vdvs e) ->
  exists v ops c, vval e s = Ok v /\ vjac e s = Ok ops /\ jc_run _ sp_addJ al (sp_init (vsize e)) ops = Ok c /\
    forall d i j, In d (vdvs e) -> dv_active d = true -> (i < vsize e)%nat -> (j < dv_dim d)%nat -> partial (fun s => do x <- vval e s; Ok (x i)) s d j (jacobian_entry (jc_store c) d i j).
Proof.
  intros e s al W Dm Ha Ro Wd. destruct (proj1 (proj2 (expr_main s (vwidth e))) e W Dm (le_n _)) as (D & v & ops & (Ev & Ej & C & I1 & P) & S1 & S2).
  assert (Hm : (N.of_nat (vsize e) < 65536)%N) by (destruct Ro; lia).
  destruct (contributes_entry (vsize e) (vwidth e) (vdepth e) ops D al (vdvs e) C Ha Hm (stack_room_room _ _ _ _ Ro) Wd I1) as (c & E & _ & En).
  exists v, ops, c. repeat (split; [assumption|]). intros d i j Hd Ad Hi Hj. rewrite entry_R, En by auto.
  apply (vder_comp (vsize e) (fun h => vval e (perturb s d j h)) (fun i => D d i j)); auto. apply P.
Qed.

(** acosSquared near one *)
Lemma rder_unique : forall f x l l', rder f x l -> rder f x l' -> l = l'.
Proof.
  intros f x l l' (g & d & Hd & H & D) (g' & d' & Hd' & H' & D'). apply (uniqueness_limite g x); auto.
  apply (der_near g' g x l' (Rmin d d')); auto; [apply Rmin_glb_lt; auto|]. intros y Hy.
  assert (Ok (g y) = Ok (g' y)) by (rewrite <- H, <- H'; auto; eapply Rlt_le_trans; [apply Hy|apply Rmin_r|apply Hy|apply Rmin_l]). congruence.
Qed.
Lemma mvt_pos : forall f f' a, 0 < a -> f 0 = 0 -> (forall c, 0 <= c <= a -> derivable_pt_lim f c (f' c)) -> (forall c, 0 < c < a -> 0 < f' c) -> 0 < f a.
Proof.
  intros f f' a Ha F0 D P. destruct (MVT_cor2 f f' 0 a Ha D) as (c & E & Hc). specialize (P c Hc). rewrite F0, !Rminus_0_r in E. rewrite E. nra.
Qed.
Lemma sin_theta : forall t, 0 < t < PI / 2 -> t * cos t < sin t.
Proof.
  intros t Ht. assert (PI2 := PI2_RGT_0). assert (0 < sin t - t * cos t); [|lra].
  apply (mvt_pos (fun t => sin t - t * cos t) (fun t => t * sin t)); [lra|rewrite sin_0; ring| |].
  - intros c _. apply (der_eq _ _ (cos c - (1 * cos c + c * (- sin c)))); [ring|]. apply der_minus; [apply derivable_pt_lim_sin|]. apply (der_mul (fun t => t) cos); [apply der_id|apply derivable_pt_lim_cos].
  - intros c Hc. apply Rmult_lt_0_compat; [lra|]. apply sin_gt_0; lra.
Qed.
Lemma cos_lt_1 : forall c, 0 < c < PI -> cos c < 1.
Proof. intros c Hc. rewrite <- cos_0. apply cos_decreasing_1; lra. Qed.
Lemma series_below : forall t, 0 < t < PI -> sin t * (4 - cos t) < 3 * t.
Proof.
  intros t Ht. assert (0 < 3 * t - sin t * (4 - cos t)); [|lra].
  apply (mvt_pos (fun t => 3 * t - sin t * (4 - cos t)) (fun t => 2 * ((1 - cos t) * (1 - cos t)))); [lra|rewrite sin_0; ring| |].
  - intros c _. apply (der_eq _ _ (3 * 1 - (cos c * (4 - cos c) + sin c * (0 - (- sin c))))).
    + pose proof (sin2_cos2 c) as E. unfold Rsqr in E. nra.
    + apply der_minus; [apply der_scal, der_id|]. apply (der_mul sin (fun t => 4 - cos t)); [apply derivable_pt_lim_sin|]. apply der_minus; [apply der_const|apply derivable_pt_lim_cos].
  - intros c Hc. pose proof (cos_lt_1 c ltac:(lra)). nra.
Qed.
Lemma acos_range : forall x, 0 < x < 1 -> 0 < acos x < PI / 2.
Proof.
  intros x Hx. pose proof (acos_bound_lt x ltac:(lra)). split; [lra|]. destruct (Rlt_dec (acos x) (PI / 2)); auto.
  assert (cos (acos x) <= 0) by (apply cos_le_0; lra). rewrite cos_acos in H0 by lra. lra.
Qed.
Lemma sqrt_sin : forall x, -1 <= x <= 1 -> sqrt (1 - x * x) = sin (acos x).
Proof. intros. rewrite sin_acos by auto. unfold Rsqr. auto. Qed.
(* the derivative of acos squared is below the series and close to it *)
Lemma acosSq_series : forall x, 1 / 2 <= x < 1 -> -2 * acos x / sqrt (1 - x * x) < -2 + 2 / 3 * (x - 1) /\ -2 + 2 / 3 * (x - 1) - -2 * acos x / sqrt (1 - x * x) <= 4 * (1 - x).
Proof.
  intros x Hx. rewrite sqrt_sin by lra. pose proof (acos_range x ltac:(lra)) as Ht. assert (Ec := cos_acos x ltac:(lra)). set (t := acos x) in *. assert (PI2 := PI2_RGT_0).
  assert (S0 : 0 < sin t) by (apply sin_gt_0; lra). pose proof (series_below t ltac:(lra)) as L1. pose proof (sin_theta t Ht) as L2. rewrite Ec in *.
  assert (Q : -2 * t / sin t * sin t = -2 * t) by (field; lra). set (q := -2 * t / sin t) in *. split.
  - apply (Rmult_lt_reg_r (sin t)); auto. rewrite Q. nra.
  - apply (Rmult_le_reg_r (sin t)); auto. rewrite Rmult_minus_distr_r, Q. 
    assert (t <= sin t * (3 - 2 * x)). { apply (Rmult_le_reg_r x); [lra|]. assert (1 <= (3 - 2 * x) * x) by nra. nra. } nra.
Qed.

(** generic scalar expressions without division *)
Definition ggood (s : state) (w : nat) (e : gexpr) (D : dmatrix) (v : R) (ops : list (@cop R)) : Prop :=
  gval e s = Ok v /\ gjac e s = Ok ops /\ contributes 1 w (gdepth e) ops D /\ (forall x, In x (ops_dvs ops) -> In x (gdvs e)) /\
  forall d j, partial (gval e) s d j (D d 0%nat j) /\ gval e (perturb s d j 0) = Ok v.
Lemma generic_main : forall s w e, (1 <= w)%nat -> gwf e -> no_division e -> exists D v ops, ggood s w e D v ops.
Proof.
  intros s w e Hw. induction e as [d|c|a IHa b IHb|a IHa b IHb|a IHa b IHb|a IHa b IHb|a IHa|a IHa]; intros W N; cbn [gwf no_division] in *; try contradiction.
  - exists (fun d' i j => if (dv_id d =? dv_id d')%nat then delta i j else 0), (s (dv_id d) 0%nat), [CAddId d].
    split; [reflexivity|]. split; [reflexivity|]. split; [rewrite <- W; apply conV|]. split; [auto|]. intros d' j. split.
    + unfold partial. cbn [gval]. apply rder_total. unfold perturb. destruct (Nat.eqb_spec (dv_id d) (dv_id d')) as [E|E]; cbn [andb].
      * unfold delta. destruct (Nat.eqb_spec 0 j); [|apply der_const]. apply (der_eq _ _ (0 + 1)); [cbn; ring|]. apply der_plus; [apply der_const|apply der_id].
      * apply der_const.
    + cbn [gval]. rewrite pert0. auto.
  - exists (fun _ _ _ => 0), c, []. split; [reflexivity|]. split; [reflexivity|]. split; [apply con0|]. split; [auto|]. intros. split; auto. apply rder_total. apply der_const.
  - destruct W, N. destruct IHa as (D1 & v1 & o1 & Ev & Ej & C & I1 & P); auto. destruct IHb as (D2 & v2 & o2 & Ev2 & Ej2 & C2 & I2 & P2); auto.
    exists (fun d i j => v2 * D1 d i j + v1 * D2 d i j), (v1 * v2), (scope (CApplyS v2) o1 ++ scope (CApplyS v1) o2). split; [cbn [gval]; rewrite Ev; cbn [bind]; rewrite Ev2; auto|].
    split; [cbn [gjac]; rewrite Ev2; cbn [bind]; rewrite Ej; cbn [bind]; rewrite Ev; cbn [bind]; rewrite Ej2; auto|]. cbn [gdepth gdvs].
    split; [apply (conA 1 w _ _ _ (fun d i j => v2 * D1 d i j) (fun d i j => v1 * D2 d i j)); (eapply con_w; [|apply conS; [|eassumption]]; lia)|].
    split; [rewrite ops_app, !ops_scopeS; apply in_app_l; auto|]. intros d j. destruct (P d j). destruct (P2 d j). split; [eapply rd_mul; eauto|cbn [gval]; rewrite H4; cbn [bind]; rewrite H6; auto].
  - destruct W, N. destruct IHa as (D1 & v1 & o1 & Ev & Ej & C & I1 & P); auto. destruct IHb as (D2 & v2 & o2 & Ev2 & Ej2 & C2 & I2 & P2); auto.
    exists (fun d i j => D1 d i j + D2 d i j), (v1 + v2), (o1 ++ o2). split; [cbn [gval]; rewrite Ev; cbn [bind]; rewrite Ev2; auto|].
    split; [cbn [gjac]; rewrite Ej; cbn [bind]; rewrite Ej2; auto|]. cbn [gdepth gdvs].
    split; [apply (conA 1 w _ _ _ D1 D2); (eapply con_w; [|eassumption]; lia)|].
    split; [rewrite ops_app; apply in_app_l; auto|]. intros d j. destruct (P d j). destruct (P2 d j). split; [|cbn [gval]; rewrite H4; cbn [bind]; rewrite H6; auto].
    unfold partial. cbn [gval]. apply (rder_ext (fun h => do x <- gval a (perturb s d j h); do y <- gval b (perturb s d j h); Ok (x + 1 * y))); [intros y; destruct (gval a (perturb s d j y)); cbn [bind]; try reflexivity; destruct (gval b (perturb s d j y)); cbn [bind]; try reflexivity; apply f_equal; ring|].
    eapply rder_eq; [|eapply rd_add; eauto]. ring.
  - destruct W, N. destruct IHa as (D1 & v1 & o1 & Ev & Ej & C & I1 & P); auto. destruct IHb as (D2 & v2 & o2 & Ev2 & Ej2 & C2 & I2 & P2); auto.
    exists (fun d i j => D1 d i j + -1 * D2 d i j), (v1 - v2), (o1 ++ scope (CApplyS (-1)) o2). split; [cbn [gval]; rewrite Ev; cbn [bind]; rewrite Ev2; auto|].
    split; [cbn [gjac]; rewrite Ej; cbn [bind]; rewrite Ej2; auto|]. cbn [gdepth gdvs].
    split; [apply (conA 1 w _ _ _ D1 (fun d i j => -1 * D2 d i j)); eapply con_w; [|eassumption| |apply conS; [|eassumption]]; lia|].
    split; [rewrite ops_app, ops_scopeS; apply in_app_l; auto|]. intros d j. destruct (P d j). destruct (P2 d j). split; [|cbn [gval]; rewrite H4; cbn [bind]; rewrite H6; auto].
    unfold partial. cbn [gval]. apply (rder_ext (fun h => do x <- gval a (perturb s d j h); do y <- gval b (perturb s d j h); Ok (x + -1 * y))); [intros y; destruct (gval a (perturb s d j y)); cbn [bind]; try reflexivity; destruct (gval b (perturb s d j y)); cbn [bind]; try reflexivity; apply f_equal; ring|].
    eapply rder_eq; [|eapply rd_add; eauto]. ring.
  - destruct IHa as (D1 & v1 & o1 & Ev & Ej & C & I1 & P); auto. exists (fun d i j => -1 * D1 d i j), (- v1), (scope (CApplyS (-1)) o1). split; [cbn [gval]; rewrite Ev; auto|]. split; [cbn [gjac]; rewrite Ej; auto|].
    cbn [gdepth gdvs]. split; [apply conS; auto|]. split; [rewrite ops_scopeS; auto|]. intros d j. destruct (P d j). split; [|cbn [gval]; rewrite H0; auto].
    unfold partial. cbn [gval]. eapply rder_comp; eauto. apply rd_neg.
  - destruct IHa as (D1 & v1 & o1 & G); auto. exists D1, v1, o1. exact G.
Qed.
Lemma generic_jacobian : forall e s al, gwf e -> no_division e -> (0 < al)%nat -> stack_room 1 al 1 (gdepth e) -> wf_dvs (gdvs e) ->
  exists v ops c, gval e s = Ok v /\ gjac e s = Ok ops /\ jc_run _ sp_addJ al (sp_init 1) ops = Ok c /\
    forall d j, In d (gdvs e) -> dv_active d = true -> (j < dv_dim d)%nat -> partial (gval e) s d j (jacobian_entry (jc_store c) d 0 j).
Proof.
  intros e s al W N Ha Ro Wd. destruct (generic_main s 1 e (le_n _) W N) as (D & v & ops & (Ev & Ej & C & I1 & P)).
  destruct (contributes_entry 1 1 (gdepth e) ops D al (gdvs e) C Ha eq_refl (stack_room_room _ _ _ _ Ro) Wd I1) as (c & E & _ & En).
  exists v, ops, c. repeat (split; [assumption|]). intros d j Hd Ad Hj. rewrite entry_R, En by auto. apply P.
Qed.
