(** * The exact logarithm meets the contract (proofs only) *)
From Coq Require Import Arith Lia List ZArith NArith Bool Reals Lra.
From Verif Require Import Lib_Ring Lib_Real Lib_Res MatrixStack_Model DesignVar_Base Jacobian_Model Scalar_Model Scalar_Spec Scalar_Calc Quat_Model Quat_Spec Quat_Proofs MinDiff_Model MinDiff_Spec MinDiff_Proofs.
Import ListNotations.
Local Open Scope R_scope.

Lemma unit_w : forall q, unit_quat q -> -1 <= q 3%nat <= 1.
Proof. intros q U. unfold unit_quat in U. nra. Qed.
Lemma sqr_sum0 : forall a b c, a * a + b * b + c * c = 0 -> a = 0 /\ b = 0 /\ c = 0.
Proof. intros a b c E. assert (a * a = 0 /\ b * b = 0 /\ c * c = 0) as (A & B & C) by nra. repeat split; apply Rsqr_0_uniq; assumption. Qed.
Lemma sin_tan : forall x, 0 < x < PI -> x * cos x < sin x.
Proof.
  intros x Hx. destruct (MVT_cor2 (fun x => sin x - x * cos x) (fun x => x * sin x) 0 x (proj1 Hx)) as (c & E & Hc).
  - intros c _. apply (der_eq _ _ (cos c - (1 * cos c + c * - sin c))); [ring|]. apply der_minus; [apply derivable_pt_lim_sin|]. apply der_mul; [apply der_id|apply derivable_pt_lim_cos].
  - rewrite sin_0, Rmult_0_l in E. assert (0 < sin c) by (apply sin_gt_0; lra). assert (0 < c * sin c * (x - 0)) by (apply Rmult_lt_0_compat; [apply Rmult_lt_0_compat|]; lra). lra.
Qed.
Lemma factor_inner : forall w, -1 < w < 1 -> exact_factor w = 2 * acos w / sqrt (1 - w * w).
Proof. intros w Hw. unfold exact_factor. destruct Req_EM_T; [lra|reflexivity]. Qed.
Lemma acos_in : forall w, -1 < w < 1 -> 0 < acos w < PI.
Proof.
  intros w Hw. pose proof (acos_bound w) as B. pose proof (cos_acos w ltac:(lra)) as C. split.
  - destruct (Rle_lt_or_eq_dec 0 (acos w) (proj1 B)) as [|E]; auto. rewrite <- E, cos_0 in C. lra.
  - destruct (Rle_lt_or_eq_dec (acos w) PI (proj2 B)) as [|E]; auto. rewrite E, cos_PI in C. lra.
Qed.
Lemma sin_acos' : forall w, -1 < w < 1 -> sqrt (1 - w * w) = sin (acos w).
Proof. intros w Hw. rewrite sin_acos by lra. unfold Rsqr. reflexivity. Qed.
Lemma factor_near : forall w, 1 / 2 < w <= 1 -> Rabs (exact_factor w - 2) <= 4 * (1 - w).
Proof.
  intros w Hw. destruct (Req_EM_T w 1) as [->|N].
  - unfold exact_factor. destruct Req_EM_T; [|lra]. replace (2 - 2) with 0 by ring. rewrite Rabs_R0. lra.
  - rewrite factor_inner, sin_acos' by lra. pose proof (acos_in w ltac:(lra)) as A. pose proof (sin_tan _ A) as T. pose proof (sin_lt_x _ (proj1 A)) as L. rewrite cos_acos in T by lra.
    set (t := acos w) in *. assert (S0 : 0 < sin t) by (apply sin_gt_0; lra).
    replace (2 * t / sin t - 2) with (2 * (t - sin t) / sin t) by (field; lra). rewrite Rabs_right by (apply Rle_ge, Rle_mult_inv_pos; lra).
    apply (Rmult_le_reg_r (sin t)); auto. replace (2 * (t - sin t) / sin t * sin t) with (2 * (t - sin t)) by (field; lra).
    assert (2 * (t - sin t) <= 2 * (t - t * w)) by lra. assert (t * (1 - w) <= 2 * sin t * (1 - w)). { apply Rmult_le_compat_r; [lra|]. nra. } lra.
Qed.
Lemma factor_pos : forall w, -1 < w <= 1 -> 0 < exact_factor w.
Proof.
  intros w Hw. destruct (Req_EM_T w 1) as [->|N]; [unfold exact_factor; destruct Req_EM_T; lra|]. rewrite factor_inner, sin_acos' by lra. pose proof (acos_in w ltac:(lra)) as A.
  apply Rdiv_lt_0_compat; [lra|]. apply sin_gt_0; lra.
Qed.
Lemma factor_der : forall w, -1 < w < 1 -> derivable_pt_lim exact_factor w (-2 / (1 - w * w) + w * exact_factor w / (1 - w * w)).
Proof.
  intros w Hw. assert (P : 0 < 1 - w * w) by nra. assert (S0 : 0 < sqrt (1 - w * w)) by (apply sqrt_lt_R0; auto). assert (SS : sqrt (1 - w * w) * sqrt (1 - w * w) = 1 - w * w) by (apply sqrt_sqrt; lra).
  apply (der_near (fun w => 2 * acos w * / sqrt (1 - w * w)) _ _ _ (1 - Rabs w)).
  - unfold Rabs. destruct Rcase_abs; lra.
  - intros y Hy. symmetry. apply factor_inner. apply Rabs_lt_iff in Hy. unfold Rabs in Hy. destruct Rcase_abs in Hy; lra.
  - rewrite factor_inner by auto. set (r := sqrt (1 - w * w)) in *.
    apply (der_eq _ _ (2 * (-1 / r) * / r + 2 * acos w * (- (/ (2 * r) * (0 - (1 * w + w * 1))) / (r * r)))).
    + rewrite <- SS. field. lra.
    + apply (der_mul (fun w => 2 * acos w) (fun w => / sqrt (1 - w * w))).
      * apply der_scal. exact (der_acos w Hw).
      * apply der_inv; [|fold r; lra]. apply (der_comp sqrt (fun w => 1 - w * w)).
        -- apply der_minus; [apply der_const|]. apply der_mul; apply der_id.
        -- apply derivable_pt_lim_sqrt. auto.
Qed.
Lemma der_small : forall g v v', (forall e, 0 < e -> exists d, 0 < d /\ forall h, Rabs h < d -> Rabs (g h) < e) -> v 0 = 0 -> derivable_pt_lim v 0 v' -> derivable_pt_lim (fun h => g h * v h) 0 0.
Proof.
  intros g v v' Hg V0 D e He. destruct (D 1 Rlt_0_1) as (d1 & H1). assert (P : 0 < Rabs v' + 1) by (pose proof (Rabs_pos v'); lra).
  destruct (Hg (e / (Rabs v' + 1)) ltac:(apply Rdiv_lt_0_compat; auto)) as (d2 & Hd2 & H2).
  assert (Hd : 0 < Rmin d1 d2) by (apply Rmin_glb_lt; auto; apply cond_pos). exists (mkposreal _ Hd). intros h Hh Hl. cbn [pos] in Hl.
  specialize (H1 h Hh ltac:(eapply Rlt_le_trans; [exact Hl|apply Rmin_l])). specialize (H2 h ltac:(eapply Rlt_le_trans; [exact Hl|apply Rmin_r])).
  rewrite !Rplus_0_l in *. rewrite V0 in *. replace ((g h * v h - g 0 * 0) / h - 0) with (g h * ((v h - 0) / h)) by (field; auto). rewrite Rabs_mult.
  assert (B : Rabs ((v h - 0) / h) < Rabs v' + 1). { replace ((v h - 0) / h) with (((v h - 0) / h - v') + v') by ring. eapply Rle_lt_trans; [apply Rabs_triang|]. lra. }
  replace e with (e / (Rabs v' + 1) * (Rabs v' + 1)) by (field; lra). apply Rmult_le_0_lt_compat; auto using Rabs_pos.
Qed.
Lemma exact_der : forall c c' i, quat_curve c c' -> exact_qdom (c 0) -> (i < 3)%nat -> derivable_pt_lim (fun h => exact_qlog (c h) i) 0 (ksum 4 (fun k => exact_logJ (c 0) i k * c' k)).
Proof.
  intros c c' i (U & D) (U0 & W0) Hi. pose proof (unit_w _ U0) as B. pose proof (D 3%nat ltac:(lia)) as D3. pose proof (D i ltac:(lia)) as Di. unfold exact_qlog.
  destruct (Req_EM_T (c 0 3%nat) 1) as [E1|N1].
  - assert (Z : forall k, (k < 3)%nat -> c 0 k = 0).
    { unfold unit_quat in U0. destruct (sqr_sum0 (c 0 0%nat) (c 0 1%nat) (c 0 2%nat)) as (A1 & A2 & A3); [nra|]. intros k Hk. destruct k as [|[|[|k]]]; auto; lia. }
    apply (der_ext (fun h => 2 * c h i + (exact_factor (c h 3%nat) - 2) * c h i)); [intros h; ring|].
    apply (der_eq _ _ (2 * c' i + 0)).
    + unfold exact_logJ. rewrite E1. unfold exact_factor. destruct (Req_EM_T 1 1); [|lra]. destruct i as [|[|[|i]]]; [| | |lia]; cbn; ring.
    + apply der_plus; [apply der_scal; exact Di|]. apply (der_small (fun h => exact_factor (c h 3%nat) - 2) (fun h => c h i) (c' i)); auto. intros e He.
      destruct (der_close (fun h => c h 3%nat) 0 (c' 3%nat) (Rmin (1/2) (e / 4)) D3 ltac:(apply Rmin_glb_lt; lra)) as (d & Hd & H). exists d. split; auto. intros h Hh.
      specialize (H h ltac:(replace (h - 0) with h by ring; exact Hh)). cbv beta in H. rewrite E1 in H. apply Rabs_lt_iff in H. pose proof (unit_w _ (U h)) as Bh.
      pose proof (Rmin_l (1/2) (e/4)). pose proof (Rmin_r (1/2) (e/4)). eapply Rle_lt_trans; [apply factor_near; lra|lra].
  - assert (Hw : -1 < c 0 3%nat < 1) by lra. pose proof (factor_der _ Hw) as F. pose proof (der_comp exact_factor (fun h => c h 3%nat) 0 _ _ D3 F) as FC.
    refine (der_eq _ _ _ _ _ (der_mul _ _ _ _ _ FC Di)). unfold exact_logJ. destruct (Req_EM_T (c 0 3%nat) 1) as [|_]; [lra|].
    set (f := exact_factor (c 0 3%nat)). assert (P : 1 - c 0 3%nat * c 0 3%nat <> 0) by nra. destruct i as [|[|[|i]]]; [| | |lia]; cbn; field; exact P.
Qed.
Lemma half_der : derivable_pt_lim (fun h => sin (h / 2)) 0 (1 / 2) /\ derivable_pt_lim (fun h => cos (h / 2)) 0 0.
Proof.
  assert (Hh : derivable_pt_lim (fun h => h / 2) 0 (1 * / 2)) by (apply der_scal_r, der_id). split.
  - apply (der_eq _ _ (cos (0 / 2) * (1 * / 2))); [unfold Rdiv; rewrite Rmult_0_l, cos_0; field|]. apply (der_comp sin (fun h => h / 2)); auto. apply derivable_pt_lim_sin.
  - apply (der_eq _ _ (- sin (0 / 2) * (1 * / 2))); [unfold Rdiv; rewrite Rmult_0_l, sin_0; ring|]. apply (der_comp cos (fun h => h / 2)); auto. apply derivable_pt_lim_cos.
Qed.
Lemma axis_der : forall j k, (j < 3)%nat -> (k < 4)%nat -> derivable_pt_lim (fun h => exact_aa2q (axis_vec j h) k) 0 (if (k =? j)%nat then 1 / 2 else 0).
Proof.
  intros j k Hj Hk. destruct half_der as (Ds & Dc). apply (der_ext (fun h => if (k =? 3)%nat then cos (h / 2) else axis_vec j (sin (h / 2)) k)); [intros h; symmetry; apply exact_axis; auto|].
  unfold axis_vec. destruct (k =? 3)%nat eqn:E3.
  - apply Nat.eqb_eq in E3. subst k. destruct (3 =? j)%nat eqn:E; [apply Nat.eqb_eq in E; lia|]. exact Dc.
  - destruct (k =? j)%nat; [exact Ds|apply der_const].
Qed.
Lemma exact_J : forall q i j, (i < 4)%nat -> (j < 3)%nat -> derivable_pt_lim (fun h => updateQuat exact_aa2q q (axis_vec j h) i) 0 (exact_quatJ q i j).
Proof.
  intros q i j Hi Hj.
  pose proof (axis_der j 0 Hj ltac:(lia)) as A0. pose proof (axis_der j 1 Hj ltac:(lia)) as A1. pose proof (axis_der j 2 Hj ltac:(lia)) as A2. pose proof (axis_der j 3 Hj ltac:(lia)) as A3.
  unfold updateQuat, qplus. destruct i as [|[|[|[|i]]]]; [| | | |lia]; cbv beta iota.
  - refine (der_eq _ _ _ _ _ (der_plus _ _ _ _ _ (der_minus _ _ _ _ _ (der_plus _ _ _ _ _ (der_scal_r _ _ _ _ A3) (der_scal_r _ _ _ _ A2)) (der_scal_r _ _ _ _ A1)) (der_scal_r _ _ _ _ A0))).
    destruct j as [|[|[|j]]]; [| | |lia]; cbn; field.
  - refine (der_eq _ _ _ _ _ (der_plus _ _ _ _ _ (der_plus _ _ _ _ _ (der_plus _ _ _ _ _ (der_scal_r _ _ _ _ (der_opp _ _ _ A2)) (der_scal_r _ _ _ _ A3)) (der_scal_r _ _ _ _ A0)) (der_scal_r _ _ _ _ A1))).
    destruct j as [|[|[|j]]]; [| | |lia]; cbn; field.
  - refine (der_eq _ _ _ _ _ (der_plus _ _ _ _ _ (der_plus _ _ _ _ _ (der_minus _ _ _ _ _ (der_scal_r _ _ _ _ A1) (der_scal_r _ _ _ _ A0)) (der_scal_r _ _ _ _ A3)) (der_scal_r _ _ _ _ A2))).
    destruct j as [|[|[|j]]]; [| | |lia]; cbn; field.
  - refine (der_eq _ _ _ _ _ (der_plus _ _ _ _ _ (der_minus _ _ _ _ _ (der_minus _ _ _ _ _ (der_scal_r _ _ _ _ (der_opp _ _ _ A0)) (der_scal_r _ _ _ _ A1)) (der_scal_r _ _ _ _ A2)) (der_scal_r _ _ _ _ A3))).
    destruct j as [|[|[|j]]]; [| | |lia]; cbn; field.
Qed.
Lemma exact_inverse : forall d i, exact_ddom d -> (i < 3)%nat -> exact_qlog (exact_aa2q d) i = d i.
Proof.
  intros d i Hd Hi. unfold exact_ddom in Hd. unfold exact_qlog, exact_aa2q. set (n2 := d 0%nat * d 0%nat + d 1%nat * d 1%nat + d 2%nat * d 2%nat) in *. assert (P : 0 <= n2) by (unfold n2; nra).
  assert (I3 : (i =? 3)%nat = false) by (apply Nat.eqb_neq; lia). rewrite Nat.eqb_refl, I3. destruct (Req_EM_T (sqrt n2) 0) as [E|E].
  - apply sqrt_eq_0 in E; auto. destruct (sqr_sum0 _ _ _ E) as (A & B & C). rewrite Rmult_0_r. destruct i as [|[|[|i]]]; auto; lia.
  - pose proof (sqrt_pos n2). set (t := sqrt n2) in *. assert (T : 0 < t / 2 < PI) by lra. assert (S0 : 0 < sin (t / 2)) by (apply sin_gt_0; lra).
    pose proof (sin2_cos2 (t / 2)) as SC. unfold Rsqr in SC. assert (C1 : -1 < cos (t / 2) < 1) by (split; nra).
    rewrite factor_inner, sin_acos' by auto. rewrite acos_cos by lra. field. split; lra.
Qed.
Lemma exact_ok : qlog_ok exact_log exact_qdom exact_ddom.
Proof.
  split; [exact exact_unit|]. split.
  { intros d Hd i Hi. cbn [qk_aa2q exact_log]. unfold exact_aa2q, quat_one. rewrite !Hd by lia. replace (0 * 0 + 0 * 0 + 0 * 0) with 0 by ring. rewrite sqrt_0. destruct Req_EM_T; [reflexivity|lra]. }
  split; [exact exact_inverse|]. split. { intros q q' i E Hi. cbn. unfold exact_qlog. rewrite !E by lia. reflexivity. }
  split. { intros i Hi. cbn. unfold exact_qlog, quat_one. destruct i as [|[|[|i]]]; [| | |lia]; cbn; ring. }
  split. { intros q (U & W) Z i Hi. assert (F : 0 < exact_factor (q 3%nat)) by (apply factor_pos; pose proof (unit_w _ U); lra).
    assert (Z3 : forall k, (k < 3)%nat -> q k = 0). { intros k Hk. specialize (Z k Hk). cbn in Z. unfold exact_qlog in Z. destruct (Rmult_integral _ _ Z); [lra|auto]. }
    unfold unit_quat in U. rewrite !Z3 in U by lia. destruct i as [|[|[|[|i]]]]; [| | | |lia]; unfold quat_one; cbn; try (apply Z3; lia). nra. }
  split. { intros c c' i C Q Hi. split; exact (exact_der c c' i C Q Hi). }
  intros q i j _ Hi Hj. exact (exact_J q i j Hi Hj).
Qed.
