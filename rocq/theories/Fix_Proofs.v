(** * Fixed-point arithmetic (proofs only) *)
From Coq Require Import ZArith Reals Lia Lra Bool.
From Flocq Require Import Core BinarySingleNaN Relative.
From Verif Require Import Lib_Res Lib_Float Fix_Model Fix_Spec.
Local Open Scope R_scope.

(** ** Integers *)
Lemma fits_spec : forall t z, fits t z = true <-> (imin t <= z <= imax t)%Z.
Proof. intros t z. unfold fits. rewrite andb_true_iff, !Z.leb_le. reflexivity. Qed.
Lemma cast_id : forall t z, fits t z = true -> cast t z = z.
Proof.
  intros t z H. apply fits_spec in H. unfold cast. assert (P : (0 < 2 ^ (bits t - 1))%Z) by (destruct t; reflexivity). assert (Q : (2 ^ bits t = 2 * 2 ^ (bits t - 1))%Z) by (destruct t; reflexivity).
  unfold imin, imax in H. cbn zeta. set (h := (2 ^ (bits t - 1))%Z) in *. rewrite Q. destruct (Z.neg_nonneg_cases z).
  - assert (E : (z mod (2 * h) = z + 2 * h)%Z) by (symmetry; apply (Z.mod_unique z (2 * h) (-1)); lia). rewrite E. destruct (Z.ltb_spec (z + 2 * h) h); lia.
  - rewrite Z.mod_small by lia. destruct (Z.ltb_spec z h); lia.
Qed.
Lemma fits_promo : forall t z, fits t z = true -> fits (promo t) z = true.
Proof. intros t z. rewrite !fits_spec. destruct t; cbn; lia. Qed.
Lemma linear_ok : forall t z, fits t z = true -> (do x <- op (promo t) z; Ok (cast t x)) = Ok z.
Proof. intros t z H. unfold op. rewrite fits_promo by auto. cbn [bind]. rewrite cast_id; auto. Qed.
Lemma num_add : forall D a b, num D (a + b) = num D a + num D b.
Proof. intros. unfold num. rewrite plus_IZR. lra. Qed.
Lemma num_sub : forall D a b, num D (a - b) = num D a - num D b.
Proof. intros. unfold num. rewrite minus_IZR. lra. Qed.
Lemma num_opp : forall D a, num D (- a) = - num D a.
Proof. intros. unfold num. rewrite opp_IZR. lra. Qed.
Lemma add_ok : forall t D a b, fits t (a + b) = true -> exists c, fp_add t a b = Ok c /\ num D c = num D a + num D b.
Proof. intros t D a b H. exists (a + b)%Z. split; [apply linear_ok; auto|apply num_add]. Qed.
Lemma sub_ok : forall t D a b, fits t (a - b) = true -> exists c, fp_sub t a b = Ok c /\ num D c = num D a - num D b.
Proof. intros t D a b H. exists (a - b)%Z. split; [apply linear_ok; auto|apply num_sub]. Qed.
Lemma neg_ok : forall t D a, fits t (- a) = true -> exists c, fp_neg t a = Ok c /\ num D c = - num D a.
Proof. intros t D a H. exists (- a)%Z. split; [apply linear_ok; auto|apply num_opp]. Qed.
Lemma compare_ok : forall D a b, (0 < D)%Z -> (fp_eq a b = true <-> num D a = num D b) /\ (fp_lt a b = true <-> num D a < num D b) /\ (fp_le a b = true <-> num D a <= num D b).
Proof.
  intros D a b H. assert (P : 0 < / IZR D) by (apply Rinv_0_lt_compat, IZR_lt; auto). unfold num, Rdiv, fp_eq, fp_lt, fp_le. rewrite Z.eqb_eq, Z.ltb_lt, Z.leb_le. split; [|split]; split; intros E.
  - subst; auto.
  - apply eq_IZR. apply (Rmult_eq_reg_r (/ IZR D)); auto. lra.
  - apply Rmult_lt_compat_r; auto. apply IZR_lt; auto.
  - apply lt_IZR. apply (Rmult_lt_reg_r (/ IZR D)); auto.
  - apply Rmult_le_compat_r; [lra|apply IZR_le; auto].
  - apply le_IZR. apply (Rmult_le_reg_r (/ IZR D)); auto.
Qed.

(** ** Truncation *)
Lemma trunc_err : forall y, Rabs (IZR (Ztrunc y) - y) < 1.
Proof.
  intros y. unfold Ztrunc. destruct (Rlt_bool_spec y 0) as [H|H].
  - pose proof (Zceil_ub y). assert (IZR (Zceil y) < y + 1) by (unfold Zceil; rewrite opp_IZR; pose proof (Zfloor_ub (- y)); lra). apply Rabs_def1; lra.
  - pose proof (Zfloor_lb y). pose proof (Zfloor_ub y). apply Rabs_def1; lra.
Qed.
Lemma truncated_intro : forall D x c, (0 < D)%Z -> c = Ztrunc (x * IZR D) -> truncated D c x.
Proof.
  intros D x c H E. split; auto. subst c. assert (P : 0 < IZR D) by (apply IZR_lt; auto). unfold num. set (c := Ztrunc (x * IZR D)).
  replace (IZR c / IZR D - x) with ((IZR c - x * IZR D) * / IZR D) by (field; lra). rewrite Rabs_mult, (Rabs_pos_eq (/ IZR D)) by (left; apply Rinv_0_lt_compat; auto).
  rewrite <- (Rmult_1_l (/ IZR D)) at 2. apply Rmult_lt_compat_r; [apply Rinv_0_lt_compat; auto|apply trunc_err].
Qed.
Lemma mul_num : forall D a b, D <> 0%Z -> num D a * num D b * IZR D = IZR (a * b) / IZR D.
Proof. intros D a b H. unfold num. rewrite mult_IZR. field. apply IZR_neq; auto. Qed.
Lemma div_num : forall D a b, D <> 0%Z -> b <> 0%Z -> num D a / num D b * IZR D = IZR (a * D) / IZR b.
Proof. intros D a b H H'. unfold num. rewrite mult_IZR. field. split; apply IZR_neq; auto. Qed.

Lemma quot_abs : forall p d, d <> 0%Z -> (Z.abs (Z.quot p d) <= Z.abs p)%Z.
Proof. intros p d H. rewrite <- Z.quot_abs by auto. rewrite Z.quot_div_nonneg by lia. apply Z.div_le_upper_bound; nia. Qed.
Lemma narrow : forall t x y d, t <> I64 -> fits t x = true -> fits t y = true -> fits t d = true -> d <> 0%Z -> fits t (Z.quot (x * y) d) = true ->
  (let n := promo (next t) in do p <- op n (cast (next t) x * cast (next t) y); do q <- idiv n p (cast (next t) d); Ok (cast t q)) = Ok (Z.quot (x * y) d).
Proof.
  intros t x y d N Hx Hy Hd Z0 Hq. assert (U : forall z, fits t z = true -> fits (next t) z = true) by (intros z; rewrite !fits_spec; destruct t; cbn; lia || congruence).
  cbn zeta. rewrite !cast_id by auto. assert (P : fits (promo (next t)) (x * y) = true).
  { apply fits_spec in Hx, Hy. apply fits_spec. destruct t; cbn in *; try congruence; nia. }
  unfold op. rewrite P. cbn [bind]. unfold idiv, op. destruct (Z.eqb_spec d 0); [contradiction|].
  assert (P' : fits (promo (next t)) (Z.quot (x * y) d) = true) by (apply fits_promo, U; auto). rewrite P'. cbn [bind]. rewrite cast_id; auto.
Qed.
Lemma divider_fits : forall t D, divider_ok t D -> fits t D = true.
Proof. intros t D (H1 & H2). apply fits_spec. split; [|exact H2]. destruct t; cbn; lia. Qed.
Lemma mul_ok : forall t D a b, t <> I64 -> divider_ok t D -> fits t a = true -> fits t b = true -> fits t (Ztrunc (num D a * num D b * IZR D)) = true ->
  exists c, fp_mul t D a b = Ok c /\ truncated D c (num D a * num D b).
Proof.
  intros t D a b N HD Ha Hb Hq. pose proof HD as (D1 & D2). rewrite mul_num, Ztrunc_div in Hq by lia. exists (Z.quot (a * b) D). split.
  - rewrite <- (narrow t a b D); auto; [destruct t; congruence || reflexivity|apply divider_fits; auto|lia].
  - apply truncated_intro; [lia|]. rewrite mul_num, Ztrunc_div by lia. reflexivity.
Qed.
Lemma div_ok : forall t D a b, t <> I64 -> divider_ok t D -> fits t a = true -> fits t b = true -> b <> 0%Z -> fits t (Ztrunc (num D a / num D b * IZR D)) = true ->
  exists c, fp_div t D a b = Ok c /\ truncated D c (num D a / num D b).
Proof.
  intros t D a b N HD Ha Hb B0 Hq. pose proof HD as (D1 & D2). rewrite div_num, Ztrunc_div in Hq by lia. exists (Z.quot (a * D) b). split.
  - rewrite <- (narrow t a D b); auto; [destruct t; congruence || reflexivity|apply divider_fits; auto].
  - apply truncated_intro; [lia|]. rewrite div_num, Ztrunc_div by lia. reflexivity.
Qed.

(** ** Another divider *)
Lemma convert_ok : forall t D OD a, (0 < OD)%Z -> (0 <= a)%Z -> (0 <= D)%Z -> (a * D < 2 ^ 64)%Z -> (a < 2 ^ 64)%Z -> fits t (Z.quot (a * D) OD) = true -> fp_convert t D OD a = Ztrunc (num OD a * IZR D).
Proof.
  intros t D OD a H1 H2 H3 H4 H5 F. replace (num OD a * IZR D) with (IZR (a * D) / IZR OD) by (unfold num; rewrite mult_IZR; unfold Rdiv; ring). rewrite Ztrunc_div by lia.
  unfold fp_convert. rewrite (Z.mod_small a) by lia. rewrite Z.mod_small by nia. rewrite <- Z.quot_div_nonneg by nia. apply cast_id; auto.
Qed.
