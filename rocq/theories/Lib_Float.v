(** * Double precision numbers (IEEE 754 binary64, one NaN) as used by the control flow of the code.
    Based on Flocq's [BinarySingleNaN]; rounding to nearest even, the C++ comparison operators are false on NaN. *)
From Coq Require Import ZArith Reals Lra Lia Bool.
From Flocq Require Import Core BinarySingleNaN.
Open Scope R_scope.

#[global] Instance prec53 : Prec_gt_0 53 := eq_refl.
#[global] Instance emax1024 : Prec_lt_emax 53 1024 := eq_refl.

Definition b64 := binary_float 53 1024.
Definition isnan (x : b64) : bool := is_nan x.
Definition NaN : b64 := B754_nan.
Definition inf : b64 := B754_infinity false.
Definition ninf : b64 := B754_infinity true.
Definition f0 : b64 := B754_zero false.
(* the double  m * 2^e  (rounded) *)
Definition fl (m e : Z) : b64 := binary_normalize 53 1024 prec53 emax1024 mode_NE m e false.
Definition fz (m : Z) : b64 := fl m 0.
Definition fsub : b64 -> b64 -> b64 := Bminus mode_NE.
Definition fadd : b64 -> b64 -> b64 := Bplus mode_NE.
Definition fmul : b64 -> b64 -> b64 := Bmult mode_NE.
Definition fdiv : b64 -> b64 -> b64 := Bdiv mode_NE.
Definition fabs : b64 -> b64 := Babs.
Definition fopp : b64 -> b64 := Bopp.
(* C++ operators <, <=, >, >=, == *)
Definition flt (x y : b64) : bool := match Bcompare x y with Some Lt => true | _ => false end.
Definition fle (x y : b64) : bool := match Bcompare x y with Some Lt | Some Eq => true | _ => false end.
Definition fgt (x y : b64) : bool := flt y x.
Definition fge (x y : b64) : bool := fle y x.
Definition feq (x y : b64) : bool := match Bcompare x y with Some Eq => true | _ => false end.

(** the value of a finite number *)
Definition val (x : b64) : R := B2R x.

Lemma flt_finite : forall x y, is_finite x = true -> is_finite y = true ->
  (flt x y = true <-> val x < val y).
Proof.
  intros x y Hx Hy. unfold flt, val. rewrite Bcompare_correct by auto.
  destruct (Rcompare_spec (B2R x) (B2R y)); split; intros; try discriminate; try lra; auto.
Qed.
Lemma fle_finite : forall x y, is_finite x = true -> is_finite y = true ->
  (fle x y = true <-> val x <= val y).
Proof.
  intros x y Hx Hy. unfold fle, val. rewrite Bcompare_correct by auto.
  destruct (Rcompare_spec (B2R x) (B2R y)); split; intros; try discriminate; try lra; auto.
Qed.

Lemma fle_nan_l : forall x y, fle x y = true -> isnan x = false.
Proof. intros [s|s| |s m e H] y; try reflexivity. unfold fle, Bcompare; cbn. discriminate. Qed.
Lemma fle_nan_r : forall x y, fle x y = true -> isnan y = false.
Proof. intros x [s|s| |s m e H]; try reflexivity. destruct x as [[]|[]| |[] ? ? ?]; unfold fle, Bcompare; cbn; discriminate. Qed.

Lemma finite_or : forall x, isnan x = false -> is_finite x = true \/ x = inf \/ x = ninf.
Proof. intros [s|s| |s m e H]; cbn; auto; try discriminate. destruct s; auto. Qed.

Lemma fle_refl : forall x, isnan x = false -> fle x x = true.
Proof.
  intros x H. destruct (finite_or x H) as [F|[->| ->]]; try reflexivity. apply fle_finite; auto. lra.
Qed.
Lemma fle_inf : forall x, isnan x = false -> fle x inf = true.
Proof. intros [[]|[]| |[] m e H]; cbn; auto; discriminate. Qed.
Lemma fle_ninf : forall x, isnan x = false -> fle ninf x = true.
Proof. intros [[]|[]| |[] m e H]; cbn; auto; discriminate. Qed.
Lemma fle_inf_inv : forall x, fle inf x = true -> x = inf.
Proof. intros [[]|[]| |[] m e H]; cbn; auto; discriminate. Qed.
Lemma fle_ninf_inv : forall x, fle x ninf = true -> x = ninf.
Proof. intros [[]|[]| |[] m e H]; cbn; auto; discriminate. Qed.

Lemma fle_trans : forall x y z, fle x y = true -> fle y z = true -> fle x z = true.
Proof.
  intros x y z H1 H2. pose proof (fle_nan_l _ _ H1) as Nx. pose proof (fle_nan_l _ _ H2) as Ny. pose proof (fle_nan_r _ _ H2) as Nz.
  destruct (finite_or x Nx) as [Fx|[->| ->]].
  - destruct (finite_or z Nz) as [Fz|[->| ->]].
    + destruct (finite_or y Ny) as [Fy|[->| ->]].
      * apply fle_finite in H1; auto. apply fle_finite in H2; auto. apply fle_finite; auto. lra.
      * apply fle_inf_inv in H2. subst. discriminate.
      * apply fle_ninf_inv in H1. subst. discriminate.
    + apply fle_inf; auto.
    + apply fle_ninf_inv in H2. subst. auto.
  - apply fle_inf_inv in H1. subst. auto.
  - apply fle_ninf; auto.
Qed.

Lemma flt_le : forall x y, flt x y = true -> fle x y = true.
Proof. intros x y H. unfold flt in H. unfold fle. destruct (Bcompare x y) as [[]|]; auto. Qed.

Lemma isnan_fabs : forall x, isnan (fabs x) = isnan x.
Proof. intros [ | | | ]; reflexivity. Qed.

Lemma flt_le_false : forall x y, isnan x = false -> isnan y = false -> flt x y = false -> fle y x = true.
Proof.
  intros x y Nx Ny H. unfold fle. unfold flt in H.
  rewrite Bcompare_swap.
  destruct (Bcompare x y) as [[]|] eqn:E; cbn in *; auto; try discriminate.
  exfalso. destruct (is_finite x) eqn:Fx; destruct (is_finite y) eqn:Fy;
    try (rewrite Bcompare_correct in E by auto; discriminate);
    destruct x as [[]|[]| |[] ? ? ?], y as [[]|[]| |[] ? ? ?]; cbn in *; discriminate.
Qed.

Lemma emin_le_pos : forall x y : b64, is_finite x = true -> is_finite y = true -> val x < val y ->
  val x - val y <= - bpow radix2 (-1074).
Proof.
  intros x y Hx Hy L. unfold val in *.
  assert (forall z : b64, is_finite z = true -> exists k : Z, B2R z = IZR k * bpow radix2 (-1074)) as R.
  { intros [s|s| |s m e H] F; try discriminate.
    - exists 0%Z. cbn. ring.
    - cbn [B2R]. unfold F2R; cbn [Fnum Fexp].
      assert (-1074 <= e)%Z as He.
      { pose proof H as G. unfold SpecFloat.bounded in G. apply andb_true_iff in G. destruct G as [G _]. unfold SpecFloat.canonical_mantissa in G. apply Zeq_bool_eq in G.
        unfold SpecFloat.fexp in G. unfold SpecFloat.emin in G. lia. }
      exists (cond_Zopp s (Zpos m) * 2 ^ (e + 1074))%Z. rewrite mult_IZR. rewrite Rmult_assoc. f_equal.
      change (2 ^ (e + 1074))%Z with (radix2 ^ (e + 1074))%Z. rewrite (IZR_Zpower radix2) by lia. rewrite <- bpow_plus. f_equal. lia. }
  destruct (R x Hx) as [a Ha]. destruct (R y Hy) as [b Hb]. rewrite Ha, Hb in *.
  pose proof (bpow_gt_0 radix2 (-1074)) as P. apply Rmult_lt_reg_r in L; auto. apply lt_IZR in L.
  assert (IZR a <= IZR b - 1). { rewrite <- (minus_IZR b 1). apply IZR_le. lia. }
  replace (IZR a * bpow radix2 (-1074) - IZR b * bpow radix2 (-1074)) with ((IZR a - IZR b) * bpow radix2 (-1074)) by ring.
  replace (- bpow radix2 (-1074)) with ((-1) * bpow radix2 (-1074)) by ring. apply Rmult_le_compat_r; lra.
Qed.

Lemma Bsign_val : forall x : b64, is_finite x = true -> Bsign x = true -> val x <= 0.
Proof.
  intros [s|s| |s m e H] F S; cbn in *; subst; try discriminate; try lra.
  unfold val; cbn. apply Rlt_le. apply F2R_lt_0. cbn. lia.
Qed.
Lemma Bsign_val_pos : forall x : b64, is_finite x = true -> Bsign x = false -> 0 <= val x.
Proof.
  intros [s|s| |s m e H] F S; cbn in *; subst; try discriminate; try lra.
  unfold val; cbn. apply Rlt_le. apply F2R_gt_0. cbn. lia.
Qed.

(** gradual underflow: the sign of the computed difference tells the order exactly; equal infinities give NaN, which is not negative *)
Lemma fsub_lt0 : forall x y, isnan x = false -> isnan y = false -> flt (fsub x y) f0 = flt x y.
Proof.
  intros x y Nx Ny.
  destruct (is_finite x) eqn:Fx; destruct (is_finite y) eqn:Fy.
  - unfold fsub. pose proof (Bminus_correct 53 1024 prec53 emax1024 mode_NE x y Fx Fy) as C.
    destruct (Rlt_bool_spec (Rabs (round radix2 (SpecFloat.fexp 53 1024) (round_mode mode_NE) (B2R x - B2R y))) (bpow radix2 1024)) as [L|L].
    + destruct C as (V & F & S).
      assert (flt (Bminus mode_NE x y) f0 = true <-> flt x y = true) as E.
      { rewrite flt_finite by auto. rewrite flt_finite by auto. unfold val. rewrite V. change (B2R f0) with 0. split; intros H.
        - destruct (Rlt_le_dec (B2R x) (B2R y)) as [|G]; auto. exfalso.
          assert (0 <= round radix2 (SpecFloat.fexp 53 1024) (round_mode mode_NE) (B2R x - B2R y)).
          { rewrite <- (round_0 radix2 (SpecFloat.fexp 53 1024) (round_mode mode_NE)). apply round_le; try lra; try typeclasses eauto. }
          lra.
        - pose proof (emin_le_pos x y Fx Fy H) as Q. unfold val in Q.
          assert (round radix2 (SpecFloat.fexp 53 1024) (round_mode mode_NE) (B2R x - B2R y) <= - bpow radix2 (-1074)).
          { rewrite <- (round_generic radix2 (SpecFloat.fexp 53 1024) (round_mode mode_NE) (- bpow radix2 (-1074))).
            - apply round_le; try typeclasses eauto. auto.
            - apply generic_format_opp. apply generic_format_bpow. unfold SpecFloat.fexp, SpecFloat.emin. lia. }
          pose proof (bpow_gt_0 radix2 (-1074)). lra. }
      destruct (flt (Bminus mode_NE x y) f0), (flt x y); intuition congruence.
    + destruct C as (V & S).
      assert (Bminus mode_NE x y = B754_infinity (Bsign x)) as I.
      { apply B2SF_inj. rewrite V. reflexivity. }
      change (@Bminus 53 1024 prec53 emax1024 mode_NE x y) with (@Bminus 53 1024 prec53 emax1024 mode_NE x y) in I.
      rewrite I. 
      assert (B2R x - B2R y <> 0) as NZ.
      { intros E. rewrite E in L. rewrite round_0 in L by typeclasses eauto. rewrite Rabs_R0 in L. pose proof (bpow_gt_0 radix2 1024). lra. }
      destruct (Bsign x) eqn:Sx.
      * assert (val x <= 0) by (apply Bsign_val; auto). assert (0 <= val y).
        { apply Bsign_val_pos; auto. destruct (Bsign y); auto; discriminate. }
        symmetry. apply flt_finite; auto. unfold val in *. lra.
      * assert (0 <= val x) by (apply Bsign_val_pos; auto). assert (val y <= 0).
        { apply Bsign_val; auto. destruct (Bsign y); auto; discriminate. }
        symmetry. destruct (flt x y) eqn:E; auto. apply flt_finite in E; auto. unfold val in *. lra.
  - destruct y as [s|s| |s m e H]; try discriminate. destruct x as [sx|sx| |sx mx ex Hx]; try discriminate; destruct s; try reflexivity; destruct sx; reflexivity.
  - destruct x as [s|s| |s m e H]; try discriminate. destruct y as [sx|sx| |sx mx ex Hx]; try discriminate; destruct s; try reflexivity; destruct sx; reflexivity.
  - destruct x as [[]|[]| |[] ? ? ?], y as [[]|[]| |[] ? ? ?]; try discriminate; reflexivity.
Qed.

Lemma fle_antisym_val : forall x y, is_finite x = true -> is_finite y = true -> fle x y = true -> fle y x = true -> val x = val y.
Proof. intros x y Fx Fy H1 H2. apply fle_finite in H1; auto. apply fle_finite in H2; auto. lra. Qed.

Example fl_ex : fle (fz 3) (fz 4) = true /\ flt (fsub (fz 3) (fz 4)) f0 = true /\ flt (fsub inf inf) f0 = false.
Proof. repeat split; reflexivity. Qed.
