(** * Multiplication of doubles: monotonicity and signs *)
From Coq Require Import ZArith Reals Lra Lia Bool.
From Flocq Require Import Core BinarySingleNaN.
From Verif Require Import Lib_Float.
Open Scope R_scope.

Notation rnd := (round radix2 (SpecFloat.fexp 53 1024) (round_mode mode_NE)).

Lemma val_generic : forall x : b64, generic_format radix2 (SpecFloat.fexp 53 1024) (val x).
Proof. intros x. apply generic_format_B2R. Qed.
Lemma rnd_val : forall x : b64, rnd (val x) = val x.
Proof. intros. apply round_generic; [apply valid_rnd_N|apply val_generic]. Qed.
Lemma rnd_le : forall x y, x <= y -> rnd x <= rnd y.
Proof. intros. apply round_le; auto. apply fexp_correct. reflexivity. apply valid_rnd_N. Qed.
Lemma rnd_0 : rnd 0 = 0.
Proof. apply round_0. apply valid_rnd_N. Qed.

Lemma val_lt_max : forall x : b64, is_finite x = true -> Rabs (val x) < bpow radix2 1024.
Proof. intros x F. apply abs_B2R_lt_emax. Qed.

(* the product of two finite numbers: the rounded product, or an infinity of the right sign *)
Lemma fmul_cases : forall x y, is_finite x = true -> is_finite y = true ->
  (is_finite (fmul x y) = true /\ val (fmul x y) = rnd (val x * val y) /\ Rabs (rnd (val x * val y)) < bpow radix2 1024) \/
  (fmul x y = B754_infinity (xorb (Bsign x) (Bsign y)) /\ bpow radix2 1024 <= Rabs (rnd (val x * val y))).
Proof.
  intros x y Fx Fy. pose proof (Bmult_correct 53 1024 prec53 emax1024 mode_NE x y) as C.
  fold (fmul x y) in C. unfold val.
  destruct (Rlt_bool_spec (Rabs (rnd (B2R x * B2R y))) (bpow radix2 1024)) as [L|L].
  - left. destruct C as (V & F & _). rewrite Fx, Fy in F. auto.
  - right. split; auto. destruct (fmul x y) as [s|s| |s m e H]; cbn in C; try discriminate. injection C as ->. reflexivity.
Qed.

Lemma pos_cases : forall x, flt f0 x = true -> (is_finite x = true /\ 0 < val x /\ Bsign x = false) \/ x = inf.
Proof.
  intros x H. destruct (is_finite x) eqn:F.
  - left. apply flt_finite in H; auto. change (val f0) with 0 in H. repeat split; auto.
    destruct (Bsign x) eqn:S; auto. apply Bsign_val in S; auto. lra.
  - right. destruct x as [s|[]| |s m e G]; try discriminate; auto.
Qed.
Lemma neg_cases : forall x, flt x f0 = true -> (is_finite x = true /\ val x < 0 /\ Bsign x = true) \/ x = ninf.
Proof.
  intros x H. destruct (is_finite x) eqn:F.
  - left. apply flt_finite in H; auto. change (val f0) with 0 in H. repeat split; auto.
    destruct (Bsign x) eqn:S; auto. apply Bsign_val_pos in S; auto. lra.
  - right. destruct x as [s|[]| |s m e G]; try discriminate; auto.
Qed.

Lemma val_1 : val (fz 1) = 1. Proof. unfold val, fz, fl. cbn. unfold F2R. cbn. field. Qed.
Lemma val_m1 : val (fz (-1)) = -1. Proof. unfold val, fz, fl. cbn. unfold F2R. cbn. field. Qed.

Lemma bpow_pos_big : 0 < bpow radix2 1024. Proof. apply bpow_gt_0. Qed.

Lemma fmul_ge : forall d e, flt f0 d = true -> fle (fz 1) e = true -> fle d (fmul d e) = true.
Proof.
  intros d e Hd He.
  destruct (pos_cases d Hd) as [(Fd & Pd & Sd)| ->].
  - destruct (finite_or e (fle_nan_r _ _ He)) as [Fe|[->| ->]].
    + apply fle_finite in He; auto. rewrite val_1 in He.
      assert (L : val d <= rnd (val d * val e)). { rewrite <- (rnd_val d) at 1. apply rnd_le. nra. }
      destruct (fmul_cases d e Fd Fe) as [(F & V & _)|(-> & _)].
      * apply fle_finite; auto. rewrite V. auto.
      * rewrite Sd. assert (Bsign e = false) as ->. { destruct (Bsign e) eqn:S; auto. apply Bsign_val in S; auto. lra. }
        cbn [xorb]. apply fle_inf. destruct d; auto.
    + destruct d as [s|s| |[] m k G]; try discriminate; reflexivity.
    + discriminate.
  - destruct e as [s|[]| |[] m k G]; try discriminate; try reflexivity.
Qed.

Lemma fmul_le : forall d e, flt f0 d = true -> is_finite d = true -> flt f0 e = true -> fle e (fz 1) = true ->
  fle (fmul d e) d = true /\ fle f0 (fmul d e) = true.
Proof.
  intros d e Hd Fd He H1. destruct (pos_cases d Hd) as [(_ & Pd & Sd)| ->]; [|discriminate].
  destruct (pos_cases e He) as [(Fe & Pe & Se)| ->]; [|discriminate].
  apply fle_finite in H1; auto. rewrite val_1 in H1.
  assert (L : rnd (val d * val e) <= val d). { rewrite <- (rnd_val d) at 2. apply rnd_le. nra. }
  assert (L0 : 0 <= rnd (val d * val e)). { rewrite <- rnd_0. apply rnd_le. nra. }
  destruct (fmul_cases d e Fd Fe) as [(F & V & _)|(_ & B)].
  - split; apply fle_finite; auto; rewrite V; auto.
  - exfalso. rewrite Rabs_right in B by lra. pose proof (val_lt_max d Fd) as M. rewrite Rabs_right in M by lra. lra.
Qed.

Lemma sign_of_neg_product : forall a b, flt (fmul a b) f0 = true ->
  (flt a f0 = true /\ flt f0 b = true) \/ (flt f0 a = true /\ flt b f0 = true).
Proof.
  intros a b H. destruct (is_finite a) eqn:Fa; destruct (is_finite b) eqn:Fb.
  - assert (N : val a * val b < 0).
    { destruct (Rlt_or_le (val a * val b) 0) as [|L]; auto. exfalso.
      assert (L0 : 0 <= rnd (val a * val b)) by (rewrite <- rnd_0; apply rnd_le; auto).
      destruct (fmul_cases a b Fa Fb) as [(F & V & _)|(E & B)].
      - apply flt_finite in H; auto. rewrite V in H. change (val f0) with 0 in H. lra.
      - rewrite E in H. destruct (xorb _ _) eqn:X; [|discriminate].
        assert (val a * val b = 0 \/ val a * val b < 0) as [Z|?]; [|rewrite Z, rnd_0, Rabs_R0 in B; pose proof bpow_pos_big; lra|lra].
        destruct (Bsign a) eqn:Sa, (Bsign b) eqn:Sb; try discriminate;
          [apply Bsign_val in Sa; auto; apply Bsign_val_pos in Sb; auto|apply Bsign_val_pos in Sa; auto; apply Bsign_val in Sb; auto]; nra. }
    destruct (Rlt_or_le (val a) 0) as [A|A]; [left|right]; split; apply flt_finite; auto; change (val f0) with 0; try nra.
    destruct (Req_dec (val a) 0) as [Z|Z]; [rewrite Z in N; lra|lra].
  - destruct b as [s|[]| |s m e G]; try discriminate; destruct a as [[]|[]| |[] ma ea Ga]; try discriminate; cbn in *; auto.
  - destruct a as [s|[]| |s m e G]; try discriminate; destruct b as [[]|[]| |[] ma ea Ga]; try discriminate; cbn in *; auto.
  - destruct a as [s|[]| |s m e G]; try discriminate; destruct b as [[]|[]| |[] ma ea Ga]; try discriminate; cbn in *; auto.
Qed.

Lemma fmul_one : forall d, is_finite d = true -> fmul (fz 1) d = d.
Proof.
  intros d F. pose proof (Bmult_correct 53 1024 prec53 emax1024 mode_NE (fz 1) d) as C. fold (fmul (fz 1) d) in C.
  assert (E := val_1). unfold val in E. rewrite E, Rmult_1_l in C.
  change (B2R d) with (val d) in C. rewrite rnd_val in C. rewrite Rlt_bool_true in C by (apply val_lt_max; auto).
  destruct C as (V & F1 & S). rewrite F in F1. change (is_finite (fmul (fz 1) d) = true) in F1.
  assert (N1 : is_nan (fmul (fz 1) d) = false) by (destruct (fmul (fz 1) d); auto; discriminate).
  apply B2R_Bsign_inj; auto. rewrite (S N1). destruct (Bsign d); reflexivity.
Qed.
Lemma fmul_mone : forall d, is_finite d = true -> fmul (fz (-1)) d = fopp d.
Proof.
  intros d F. pose proof (Bmult_correct 53 1024 prec53 emax1024 mode_NE (fz (-1)) d) as C. fold (fmul (fz (-1)) d) in C.
  assert (E := val_m1). unfold val in E. rewrite E in C.
  replace (-1 * B2R d) with (val (fopp d)) in C by (unfold val, fopp; rewrite B2R_Bopp; ring).
  assert (Fo : is_finite (fopp d) = true) by (unfold fopp; rewrite is_finite_Bopp; auto).
  rewrite rnd_val in C. rewrite Rlt_bool_true in C by (apply val_lt_max; auto).
  destruct C as (V & F1 & S). rewrite F in F1. change (is_finite (fmul (fz (-1)) d) = true) in F1.
  assert (N1 : is_nan (fmul (fz (-1)) d) = false) by (destruct (fmul (fz (-1)) d); auto; discriminate).
  assert (Nd : is_nan d = false) by (destruct d; auto; discriminate).
  apply B2R_Bsign_inj; auto. rewrite (S N1). unfold fopp. rewrite Bsign_Bopp by auto. destruct (Bsign d); reflexivity.
Qed.
Lemma fmul_zero : forall d, is_finite d = true -> exists s, fmul (fz 0) d = B754_zero s.
Proof. intros [s|s| |s m e H] F; try discriminate; eexists; reflexivity. Qed.
