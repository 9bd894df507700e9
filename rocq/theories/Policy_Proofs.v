From Coq Require Import Reals Lra Lia List Bool.
From Verif Require Import Lib_Ring Lib_Real Policy_Model Policy_Spec.
Import ListNotations.
Open Scope R_scope.

Lemma rle_true : forall a b, rle a b = true <-> a <= b.
Proof. intros. unfold rle. destruct (Rle_dec a b); split; intros; auto; try discriminate; try lra. Qed.
Lemma rle_false : forall a b, rle a b = false <-> b < a.
Proof. intros. unfold rle. destruct (Rle_dec a b); split; intros; auto; try discriminate; try lra. Qed.
Lemma rlt_true : forall a b, rlt a b = true <-> a < b.
Proof. intros. unfold rlt. destruct (Rlt_dec a b); split; intros; auto; try discriminate; try lra. Qed.
Lemma rlt_false : forall a b, rlt a b = false <-> b <= a.
Proof. intros. unfold rlt. destruct (Rlt_dec a b); split; intros; auto; try discriminate; try lra. Qed.

(** ** Levenberg-Marquardt *)
Lemma pow_ge_m1 : forall p x, -1 < x -> -1 <= x ^ p.
Proof.
  intros p x H. destruct (Rle_lt_dec 0 x) as [P|P].
  - pose proof (pow_le x p P). lra.
  - assert (Rabs (x ^ p) <= 1).
    { rewrite <- RPow_abs. rewrite <- (pow1 p). apply pow_incr. split; [apply Rabs_pos|]. rewrite Rabs_left by auto. lra. }
    pose proof (Rle_abs (- x ^ p)). rewrite Rabs_Ropp in *. lra.
Qed.

Lemma lm_factor_bounds : forall P rho, lm_params_ok P -> xgt rho 0 = true ->
  exists f, lm_factor P rho = Some f /\ 1 / gamma P <= f <= beta P.
Proof.
  intros P rho (H1 & H2 & H3 & H4 & H5) Hr.
  assert (0 < 1 / gamma P <= 1) as G.
  { unfold Rdiv. rewrite Rmult_1_l. split; [apply Rinv_0_lt_compat; lra|]. rewrite <- Rinv_1. apply Rinv_le_contravar; lra. }
  destruct rho as [r| | |]; cbn in Hr; try discriminate; unfold lm_factor.
  - apply rlt_true in Hr. eexists. split; [reflexivity|].
    assert (-1 < 2 * r - 1) as X by lra. pose proof (pow_ge_m1 (p P) _ X) as Q.
    assert (1 - (beta P - 1) * (2 * r - 1) ^ p P <= beta P).
    { assert ((beta P - 1) * (-1) <= (beta P - 1) * (2 * r - 1) ^ p P) by (apply Rmult_le_compat_l; lra). lra. }
    destruct (rlt (1 - (beta P - 1) * (2 * r - 1) ^ p P) (1 / gamma P)) eqn:E.
    + lra.
    + apply rlt_false in E. lra.
  - eexists. split; [reflexivity|]. lra.
Qed.

Definition floor_ (P : lmparams) : R := Rmin (lambdaInit P) (1 / 10 ^ 16 / gamma P).

Lemma ten16 : 0 < 1 / 10 ^ 16. Proof. apply Rdiv_lt_0_compat; [lra|apply pow_lt; lra]. Qed.
Lemma ten1516 : 1 / 10 ^ 16 < 1 / 10 ^ 15.
Proof.
  unfold Rdiv. rewrite !Rmult_1_l. apply Rinv_lt_contravar; [apply Rmult_lt_0_compat; apply pow_lt; lra|].
  replace (10 ^ 16) with (10 * 10 ^ 15) by ring. assert (0 < 10 ^ 15) by (apply pow_lt; lra). lra.
Qed.
Lemma ten1516' : 2 * (1 / 10 ^ 16) <= 1 / 10 ^ 15.
Proof. assert (0 < 10 ^ 15) by (apply pow_lt; lra). replace (10 ^ 16) with (10 * 10 ^ 15) by ring.
  unfold Rdiv. rewrite Rinv_mult by lra. assert (0 < / 10 ^ 15) by (apply Rinv_0_lt_compat; lra). lra. Qed.

Lemma floor_pos : forall P, lm_params_ok P -> 0 < floor_ P.
Proof.
  intros P (H1 & H2 & _). unfold floor_. apply Rmin_glb_lt; auto. apply Rdiv_lt_0_compat; [apply ten16|lra].
Qed.
Lemma floor_small : forall P, lm_params_ok P -> floor_ P <= 1 / 10 ^ 16.
Proof.
  intros P (H1 & H2 & _). unfold floor_. eapply Rle_trans; [apply Rmin_r|].
  unfold Rdiv at 1. rewrite <- (Rmult_1_r (1 / 10 ^ 16)) at 2. apply Rmult_le_compat_l; [apply Rlt_le, ten16|].
  rewrite <- Rinv_1. apply Rinv_le_contravar; lra.
Qed.

Lemma xle_xgt : forall r, r <> Nan -> xle r 0 = false -> xgt r 0 = true.
Proof.
  intros [r| | |] N H; cbn in *; auto; try congruence. apply rle_false in H. apply rlt_true. lra.
Qed.

Lemma lm_inv : forall n P s dx, lm_params_ok P -> lm_reach n P s dx ->
  exists l, lambda s = Some l /\ floor_ P <= l /\ 1 <= mu s.
Proof.
  intros n P s dx OK H. induction H as [J sys dx|s dx c ok dx' s' H IH N S].
  - exists (lambdaInit P). cbn. split; auto. split; [apply Rmin_l|]. destruct OK as (_ & _ & _ & _ & ?); auto.
  - destruct IH as (l & Hl & Hf & Hm). pose proof (floor_pos P OK) as FP.
    unfold lm_solve in S. cbn [bfirst base_enter] in S.
    destruct (bfirst (lm_base s)) eqn:B.
    + injection S as <- <- <-. cbn. eauto.
    + specialize (N eq_refl).
      set (rho := getLmRho n (mkLm (base_enter (lm_base s) c) (lambda s) (mu s) (lm_sys s)) dx) in *.
      unfold lm_update in S. rewrite Hl in S. destruct (cpf c) eqn:PF.
      * injection S as <- <- <-. cbn. eexists. split; [reflexivity|]. split; [|lra].
        rewrite <- (Rmult_1_r (floor_ P)). apply Rmult_le_compat; lra.
      * destruct (xle rho 0) eqn:X.
        { injection S as <- <- <-. cbn. eexists. split; [reflexivity|]. split; [|lra].
          rewrite <- (Rmult_1_r (floor_ P)). apply Rmult_le_compat; lra. }
        destruct (rlt (1 / 10 ^ 16) l) eqn:L.
        -- injection S as <- <- <-. apply rlt_true in L.
           destruct (lm_factor_bounds P rho OK (xle_xgt _ (N eq_refl) X)) as (f & Ef & B1 & B2). rewrite Ef. cbn [option_map lambda mu].
           eexists. split; [reflexivity|]. destruct OK as (O1 & O2 & O3 & O4 & O5). split; [|lra].
           assert (0 < 1 / gamma P) by (apply Rdiv_lt_0_compat; lra).
           eapply Rle_trans; [apply Rmin_r|]. apply Rle_trans with (1 / 10 ^ 16 * (1 / gamma P)); [unfold Rdiv; lra|].
           pose proof ten16. apply Rmult_le_compat; lra.
        -- injection S as <- <- <-. cbn [lambda mu]. eexists. split; [reflexivity|]. split; [|auto].
           pose proof (floor_small P OK). pose proof ten1516. lra.
Qed.

Lemma lm_failure_step : forall n P s dx c ok dx' s', lm_params_ok P -> lm_reach n P s dx -> lm_failed n s dx c ->
  lm_solve n P s dx c = (ok, dx', s') ->
  exists l f, lambda s = Some l /\ lambda s' = Some (l * f) /\ f = mu s' /\ 2 * mu s <= f /\ 2 <= f /\ lm_sys s' = lm_sys s.
Proof.
  intros n P s dx c ok dx' s' OK H (F1 & F2) S. destruct (lm_inv n P s dx OK H) as (l & Hl & Hf & Hm).
  unfold lm_solve in S. cbn [bfirst base_enter] in S. rewrite F1 in S. unfold lm_update in S. rewrite Hl in S.
  destruct (cpf c) eqn:PF.
  - injection S as <- <- <-. exists l, (mu s * 2). cbn. repeat split; auto; lra.
  - destruct F2 as [|(r & Er & X)]; [discriminate|]. rewrite <- Hl in S. rewrite Er in S. rewrite X in S. rewrite Hl in S. 
    injection S as <- <- <-. exists l, (mu s * 10). cbn. repeat split; auto; lra.
Qed.

Lemma lm_success_step : forall n P s dx c ok dx' s', lm_params_ok P -> lm_reach n P s dx -> lm_succeeded n s dx c ->
  lm_solve n P s dx c = (ok, dx', s') ->
  exists l, lambda s = Some l /\ lm_sys s' = cfresh c /\
   (1 / 10 ^ 16 < l -> exists f, lambda s' = Some (l * f) /\ 1 / gamma P <= f <= beta P) /\
   (l <= 1 / 10 ^ 16 -> lambda s' = Some (1 / 10 ^ 15)).
Proof.
  intros n P s dx c ok dx' s' OK H (F1 & F2 & F3) S. destruct (lm_inv n P s dx OK H) as (l & Hl & Hf & Hm).
  exists l. split; auto. unfold lm_solve in S. cbn [bfirst base_enter] in S. rewrite F1, F2 in S. unfold lm_update in S.
  set (rho := getLmRho n (mkLm (base_enter (lm_base s) c) (lambda s) (mu s) (lm_sys s)) dx) in *.
  assert (xle rho 0 = false) as X.
  { destruct rho as [r| | |]; cbn in *; auto; try discriminate. apply rlt_true in F3. apply rle_false. lra. }
  rewrite X, Hl in S. destruct (rlt (1 / 10 ^ 16) l) eqn:L.
  - injection S as <- <- <-. apply rlt_true in L. destruct (lm_factor_bounds P rho OK F3) as (f & Ef & B). rewrite Ef. cbn.
    split; auto. split; [eauto|]. intros; lra.
  - injection S as <- <- <-. apply rlt_false in L. cbn. split; auto. split; [intros; lra|auto].
Qed.

Lemma lm_two_failures : forall n P s dx c ok dx1 s1 c2 ok2 dx2 s2, lm_params_ok P -> lm_reach n P s dx ->
  lm_failed n s dx c -> lm_solve n P s dx c = (ok, dx1, s1) ->
  lm_failed n s1 dx1 c2 -> lm_solve n P s1 dx1 c2 = (ok2, dx2, s2) ->
  exists l f1 f2, lambda s = Some l /\ lambda s1 = Some (l * f1) /\ lambda s2 = Some (l * f1 * f2) /\ 2 <= f1 /\ 2 * f1 <= f2.
Proof.
  intros n P s dx c ok dx1 s1 c2 ok2 dx2 s2 OK H F1 S1 F2 S2.
  destruct (lm_failure_step n P s dx c ok dx1 s1 OK H F1 S1) as (l & f1 & E1 & E2 & E3 & E4 & E5 & _).
  assert (lm_reach n P s1 dx1) as H1.
  { eapply lm_reach_step; eauto. intros B PF. destruct F1 as (_ & [F1|(r & F1 & F1')]); [congruence|]. rewrite F1. intros ->. discriminate. }
  destruct (lm_failure_step n P s1 dx1 c2 ok2 dx2 s2 OK H1 F2 S2) as (l' & f2 & E1' & E2' & E3' & E4' & E5' & _).
  exists l, f1, f2. rewrite E2 in E1'. injection E1' as <-. repeat split; auto. lra.
Qed.

(** NaN gain ratio: the damping becomes NaN *)
Lemma lm_nan : forall n P s dx c ok dx' s' l, bfirst (lm_base s) = false -> cpf c = false -> lambda s = Some l -> 1 / 10 ^ 16 < l ->
  getLmRho n (mkLm (base_enter (lm_base s) c) (lambda s) (mu s) (lm_sys s)) dx = Nan ->
  lm_solve n P s dx c = (ok, dx', s') -> lambda s' = None.
Proof.
  intros n P s dx c ok dx' s' l B PF Hl L Hr S. unfold lm_solve in S. cbn [bfirst base_enter] in S. rewrite B, PF, Hr in S.
  unfold lm_update in S. cbn [xle] in S. rewrite Hl in S. apply rlt_true in L. rewrite L in S. cbn in S. injection S as <- <- <-. reflexivity.
Qed.

(** the step is always what the solver returned in this very call *)
Lemma lm_uses_solver : forall n P s dx c, fst (lm_solve n P s dx c) = csolve c.
Proof.
  intros. unfold lm_solve. destruct (csolve c) as [a b]. cbn [fst snd].
  destruct (if bfirst (base_enter (lm_base s) c) then _ else _) as [[? ?] ?]. reflexivity.
Qed.

(** ** vectors *)
Section Vec.
  Variable n : nat.
  Notation dot := (@vdot R RRing n).
  Lemma dot_add_l : forall u v w, dot (vadd u v) w = dot u w + dot v w. Proof. exact (vdot_add_l n). Qed.
  Lemma dot_add_r : forall u v w, dot w (vadd u v) = dot w u + dot w v. Proof. exact (vdot_add_r n). Qed.
  Lemma dot_sub_l : forall u v w, dot (vsub u v) w = dot u w - dot v w. Proof. exact (vdot_sub_l n). Qed.
  Lemma dot_sub_r : forall u v w, dot w (vsub u v) = dot w u - dot w v. Proof. exact (vdot_sub_r n). Qed.
  Lemma dot_scale_l : forall a u w, dot (vscale a u) w = a * dot u w. Proof. exact (vdot_scale_l n). Qed.
  Lemma dot_scale_r : forall a u w, dot w (vscale a u) = a * dot w u. Proof. exact (vdot_scale_r n). Qed.
  Lemma dot_comm : forall u v, dot u v = dot v u. Proof. exact (vdot_comm n). Qed.
  Lemma ksum_nonneg : forall m (f : nat -> R), (forall i, (i < m)%nat -> 0 <= f i) -> 0 <= ksum m f.
  Proof.
    induction m; intros f H; cbn [ksum].
    - cbn. lra.
    - change (0 <= ksum m f + f m). assert (0 <= ksum m f) by (apply IHm; auto). assert (0 <= f m) by auto. lra.
  Qed.
  Lemma ksum_nonneg_zero : forall m (f : nat -> R), (forall i, (i < m)%nat -> 0 <= f i) -> ksum m f = 0 -> forall i, (i < m)%nat -> f i = 0.
  Proof.
    induction m; intros f H E i Hi; [lia|]. cbn [ksum] in E. change (ksum m f + f m = 0) in E.
    assert (0 <= ksum m f) by (apply ksum_nonneg; auto). assert (0 <= f m) by auto.
    destruct (Nat.eq_dec i m) as [->|]; [lra|]. apply (IHm f); auto; [lra|lia].
  Qed.
  Lemma dot_pos : forall v, 0 <= dot v v.
  Proof. intros. apply ksum_nonneg. intros. change (0 <= v i * v i). apply Rle_0_sqr. Qed.
  Lemma dot_zero : forall v, dot v v = 0 -> veq n v (fun _ => 0).
  Proof.
    intros v H i Hi. assert (v i * v i = 0). { apply (ksum_nonneg_zero n (fun i => v i * v i)); auto. intros; apply Rle_0_sqr. }
    apply Rmult_integral in H0. tauto.
  Qed.
  Lemma norm_pos : forall v, 0 <= norm n v. Proof. intros. apply sqrt_pos. Qed.
  Lemma norm_sq : forall v, norm n v * norm n v = dot v v.
  Proof. intros. unfold norm. apply sqrt_sqrt. apply dot_pos. Qed.
  Lemma norm_eq : forall v a, 0 <= a -> dot v v = a * a -> norm n v = a.
  Proof. intros v a Ha H. unfold norm. rewrite H. apply sqrt_square. auto. Qed.
  Lemma norm_ext : forall u v, veq n u v -> norm n u = norm n v.
  Proof. intros u v H. unfold norm. f_equal. apply vdot_ext; auto. Qed.
  Lemma norm_scale : forall a v, 0 <= a -> norm n (vscale a v) = a * norm n v.
  Proof.
    intros a v Ha. apply norm_eq.
    - apply Rmult_le_pos; auto. apply norm_pos.
    - rewrite dot_scale_l, dot_scale_r. pose proof (norm_sq v). transitivity (a * a * (norm n v * norm n v)); [|ring]. rewrite H. ring.
  Qed.
End Vec.

Lemma sq_le : forall a b, 0 <= a -> 0 <= b -> a * a <= b * b -> a <= b.
Proof. intros. apply Rsqr_incr_0; auto. Qed.
Lemma sq_lt : forall a b, 0 <= a -> 0 <= b -> a * a < b * b -> a < b.
Proof. intros. apply Rsqr_incrst_0; auto. Qed.

(** the interpolation coefficient solves the quadratic *)
Lemma dl_beta_root : forall c D ex be, 0 < D -> dl_beta c D ex = Some be -> D * be * be + 2 * be * c = ex.
Proof.
  intros c D ex be HD H. unfold dl_beta in H. destruct (rlt (c * c + D * ex) 0) eqn:E; [discriminate|]. apply rlt_false in E.
  pose proof (sqrt_sqrt _ E) as Q. pose proof (sqrt_pos (c * c + D * ex)) as Q'. set (q := sqrt (c * c + D * ex)) in *.
  destruct (rle c 0) eqn:C; injection H as <-.
  - assert (D * ((- c + q) / D) = - c + q) as A by (field; lra).
    replace (D * ((- c + q) / D) * ((- c + q) / D) + 2 * ((- c + q) / D) * c) with ((-c + q) * (((- c + q) / D) ) + 2 * ((- c + q) / D) * c) by (rewrite A; ring).
    replace ((-c + q) * (((- c + q) / D) ) + 2 * ((- c + q) / D) * c) with ((q * q - c * c) / D) by (field; lra). rewrite Q. field. lra.
  - apply rle_false in C. assert (c + q <> 0) by lra.
    assert (D * ex = q * q - c * c) as A by lra.
    replace (D * (ex / (c + q)) * (ex / (c + q)) + 2 * (ex / (c + q)) * c) with (ex * ((D * ex) + 2 * c * (c + q)) / ((c + q) * (c + q))) by (field; auto).
    rewrite A. field. auto.
Qed.
Lemma dl_beta_range : forall c D ex be, 0 < D -> 0 <= ex -> ex < D + 2 * c -> dl_beta c D ex = Some be -> 0 <= be <= 1.
Proof.
  intros c D ex be HD Hex Hlt H. unfold dl_beta in H. destruct (rlt (c * c + D * ex) 0) eqn:E; [discriminate|]. apply rlt_false in E.
  pose proof (sqrt_sqrt _ E) as Q. pose proof (sqrt_pos (c * c + D * ex)) as Q'. set (q := sqrt (c * c + D * ex)) in *.
  assert (0 <= D * ex) as DE by (apply Rmult_le_pos; lra).
  assert (D * ex < D * (D + 2 * c)) as DL by (apply Rmult_lt_compat_l; lra).
  assert (Rabs c <= q) as A1. { apply sq_le; auto; [apply Rabs_pos|]. rewrite <- Rabs_mult. rewrite Rabs_right; [lra|]. apply Rle_ge, Rle_0_sqr. }
  assert (- c <= q /\ c <= q) as (A2 & A3). { unfold Rabs in A1. destruct (Rcase_abs c); lra. }
  assert (0 <= D + c -> q < D + c) as A4. { intros G. apply sq_lt; auto. lra. }
  assert (0 <= D + c) as A5. { lra. }
  specialize (A4 A5).
  destruct (rle c 0) eqn:C; injection H as <-.
  - apply rle_true in C. split.
    + apply Rmult_le_pos; [lra|]. apply Rlt_le, Rinv_0_lt_compat; auto.
    + apply Rmult_le_reg_r with D; auto. unfold Rdiv. rewrite Rmult_assoc, Rinv_l by lra. lra.
  - apply rle_false in C. split.
    + apply Rmult_le_pos; [lra|]. apply Rlt_le, Rinv_0_lt_compat; lra.
    + apply Rmult_le_reg_r with (c + q); [lra|]. unfold Rdiv. rewrite Rmult_assoc, Rinv_l by lra. rewrite Rmult_1_l, Rmult_1_r.
      apply Rmult_le_reg_l with D; auto. 
      assert ((q - c) * (q + c) <= D * (q + c)) by (apply Rmult_le_compat_r; lra). lra.
Qed.
