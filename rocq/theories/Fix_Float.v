(** * Fixed-point arithmetic through long double and double (proofs only) *)
From Coq Require Import ZArith Reals Lia Lra Bool.
From Flocq Require Import Core BinarySingleNaN Relative.
From Verif Require Import Lib_Res Lib_Float Fix_Model Fix_Spec Fix_Proofs.
Local Open Scope R_scope.

Section Fmt.
  Variables (prec emax : Z).
  Context (Hp : Prec_gt_0 prec) (He : Prec_lt_emax prec emax).
  Hypothesis big : (130 < emax)%Z.
  Hypothesis small : (4 <= prec <= 64)%Z.
  Notation fexp := (SpecFloat.fexp prec emax).
  Notation rnd := (round radix2 fexp ZnearestE).

  Lemma int_format : forall z, (Z.abs z < 2 ^ prec)%Z -> generic_format radix2 fexp (IZR z).
  Proof.
    intros z H. change fexp with (FLT_exp (SpecFloat.emin prec emax) prec). apply generic_format_FLT. apply (FLT_spec _ _ _ _ (Float radix2 z 0)).
    - unfold F2R. cbn. ring.
    - exact H.
    - cbn. unfold SpecFloat.emin. lia.
  Qed.
  Lemma rel : forall x, bpow radix2 (-100) <= Rabs x \/ x = 0 -> (-100 >= SpecFloat.emin prec emax + prec - 1)%Z -> Rabs (rnd x - x) <= bpow radix2 (- prec) * Rabs x.
  Proof.
    intros x [H|H] E.
    - pose proof (relative_error_N_FLT radix2 (SpecFloat.emin prec emax) prec Hp (fun x => negb (Z.even x)) x) as Q. assert (B : bpow radix2 (SpecFloat.emin prec emax + prec - 1) <= Rabs x) by (eapply Rle_trans; [apply bpow_le|exact H]; lia).
      specialize (Q B). change (FLT_exp (SpecFloat.emin prec emax) prec) with fexp in Q. eapply Rle_trans; [exact Q|]. apply Rmult_le_compat_r; [apply Rabs_pos|]. rewrite bpow_plus. cbn. lra.
    - subst. rewrite round_0 by typeclasses eauto. rewrite Rminus_0_r, Rabs_R0. lra.
  Qed.
  Lemma rnd_bound : forall x, Rabs x <= bpow radix2 130 -> Rabs (rnd x) < bpow radix2 emax.
  Proof.
    intros x H. apply Rle_lt_trans with (bpow radix2 130); [|apply bpow_lt; auto]. apply abs_round_le_generic; auto; try typeclasses eauto. apply generic_format_bpow. unfold SpecFloat.fexp, SpecFloat.emin. lia.
  Qed.
  (* rounding keeps the integer part if the quotient is far enough below the next integer *)
  Lemma trunc_rnd_pos : forall n d, (0 < n < 2 ^ prec)%Z -> (0 < d <= 2 ^ 64)%Z -> (-100 >= SpecFloat.emin prec emax + prec - 1)%Z -> Ztrunc (rnd (IZR n / IZR d)) = Z.quot n d.
  Proof.
    intros n d Hn Hd E. set (q := IZR n / IZR d). assert (Pd : 0 < IZR d) by (apply IZR_lt; lia). assert (Pn : 0 < IZR n) by (apply IZR_lt; lia). assert (Pq : 0 < q) by (apply Rdiv_lt_0_compat; auto).
    set (m := Z.quot n d). assert (Qe : m = (n / d)%Z) by (apply Z.quot_div_nonneg; lia). pose proof (Z.div_mod n d ltac:(lia)) as DM. rewrite <- Qe in DM. pose proof (Z.mod_pos_bound n d ltac:(lia)) as MB.
    assert (M0 : (0 <= m)%Z) by (rewrite Qe; apply Z.div_pos; lia). assert (Mn : (m <= n)%Z) by nia.
    assert (Lo : IZR m <= q). { unfold q. apply (Rmult_le_reg_r (IZR d)); auto. unfold Rdiv. rewrite Rmult_assoc, Rinv_l, Rmult_1_r by lra. rewrite <- mult_IZR. apply IZR_le. nia. }
    assert (Hi : q <= IZR m + 1 - / IZR d). { unfold q. apply (Rmult_le_reg_r (IZR d)); auto. unfold Rdiv. rewrite Rmult_assoc, Rinv_l, Rmult_1_r by lra. rewrite Rmult_minus_distr_r, Rinv_l by lra. rewrite <- plus_IZR, <- mult_IZR, <- minus_IZR. apply IZR_le. nia. }
    assert (R1 : IZR m <= rnd q) by (apply round_ge_generic; auto; try typeclasses eauto; apply int_format; lia).
    assert (R2 : rnd q < IZR m + 1).
    { pose proof (rel q) as Rl. assert (B : bpow radix2 (-100) <= Rabs q).
      { rewrite Rabs_pos_eq by lra. apply Rle_trans with (/ IZR d).
        - replace (bpow radix2 (-100)) with (/ IZR (2 ^ 100)) by reflexivity. apply Rinv_le; auto. apply IZR_le. lia.
        - unfold q, Rdiv. rewrite <- (Rmult_1_l (/ IZR d)) at 1. apply Rmult_le_compat_r; [left; apply Rinv_0_lt_compat; auto|]. change 1 with (IZR 1). apply IZR_le. lia. }
      specialize (Rl (or_introl B) E). rewrite (Rabs_pos_eq q) in Rl by lra. pose proof (Rle_abs (rnd q - q)).
      assert (S : bpow radix2 (- prec) * q < / IZR d).
      { unfold q, Rdiv. rewrite <- Rmult_assoc. rewrite <- (Rmult_1_l (/ IZR d)) at 2. apply Rmult_lt_compat_r; [apply Rinv_0_lt_compat; auto|]. rewrite bpow_opp. apply (Rmult_lt_reg_l (bpow radix2 prec)); [apply bpow_gt_0|].
        rewrite <- Rmult_assoc, Rinv_r, Rmult_1_l, Rmult_1_r by (apply Rgt_not_eq, bpow_gt_0). rewrite <- (IZR_Zpower radix2) by lia. apply IZR_lt. cbn. lia. }
      lra. }
    rewrite Ztrunc_floor by (apply Rle_trans with (IZR m); auto; apply IZR_le; auto). apply Zfloor_imp. rewrite plus_IZR. split; auto.
  Qed.
  Lemma rnd_opp : forall x, rnd (- x) = - rnd x.
  Proof. intros. apply round_NE_opp. Qed.
  Lemma trunc_rnd : forall n d, (Z.abs n < 2 ^ prec)%Z -> (0 < Z.abs d <= 2 ^ 64)%Z -> (-100 >= SpecFloat.emin prec emax + prec - 1)%Z -> Ztrunc (rnd (IZR n / IZR d)) = Z.quot n d.
  Proof.
    intros n d Hn Hd E. destruct (Z.eq_dec n 0) as [->|N0]; [unfold Rdiv; rewrite Rmult_0_l, round_0 by typeclasses eauto; change 0 with (IZR 0); rewrite Ztrunc_IZR; rewrite Z.quot_0_l; lia|].
    assert (D0 : IZR d <> 0) by (apply IZR_neq; lia).
    assert (C : exists n' d', (0 < n' < 2 ^ prec)%Z /\ (0 < d' <= 2 ^ 64)%Z /\ ((IZR n / IZR d = IZR n' / IZR d' /\ Z.quot n d = Z.quot n' d') \/ (IZR n / IZR d = - (IZR n' / IZR d') /\ Z.quot n d = (- Z.quot n' d')%Z))).
    { destruct (Z_lt_le_dec n 0); destruct (Z_lt_le_dec d 0).
      - exists (- n)%Z, (- d)%Z. split; [lia|]. split; [lia|]. left. rewrite !opp_IZR. split; [field; auto|]. rewrite Z.quot_opp_opp; lia.
      - exists (- n)%Z, d. split; [lia|]. split; [lia|]. right. rewrite !opp_IZR. split; [field; auto|]. rewrite Z.quot_opp_l; lia.
      - exists n, (- d)%Z. split; [lia|]. split; [lia|]. right. rewrite !opp_IZR. split; [field; auto|]. rewrite Z.quot_opp_r; lia.
      - exists n, d. split; [lia|]. split; [lia|]. left. auto. }
    destruct C as (n' & d' & H1 & H2 & [[-> ->]|[-> ->]]); [apply trunc_rnd_pos; auto|]. rewrite rnd_opp, Ztrunc_opp. f_equal. apply trunc_rnd_pos; auto.
  Qed.
End Fmt.

Notation rnd64 := (round radix2 (SpecFloat.fexp 64 16384) ZnearestE).
Notation rnd53 := (round radix2 (SpecFloat.fexp 53 1024) ZnearestE).
Lemma pow64 : bpow radix2 64 = 18446744073709551616. Proof. reflexivity. Qed.
Lemma E64 : (-100 >= SpecFloat.emin 64 16384 + 64 - 1)%Z. Proof. cbn. lia. Qed.
Lemma E53 : (-100 >= SpecFloat.emin 53 1024 + 53 - 1)%Z. Proof. cbn. lia. Qed.
Lemma rel64 : forall x, bpow radix2 (-100) <= Rabs x \/ x = 0 -> Rabs (rnd64 x - x) <= / 18446744073709551616 * Rabs x.
Proof. intros x H. apply (rel 64 16384 _ x H E64). Qed.
Lemma rel53 : forall x, bpow radix2 (-100) <= Rabs x \/ x = 0 -> Rabs (rnd53 x - x) <= / 9007199254740992 * Rabs x.
Proof. intros x H. apply (rel 53 1024 _ x H E53). Qed.

Lemma bound64 : forall x, Rabs x <= bpow radix2 130 -> Rabs (rnd64 x) < bpow radix2 16384.
Proof. intros x H. apply (rnd_bound 64 16384 prec64); [lia|lia|exact H]. Qed.
Lemma bound53 : forall x, Rabs x <= bpow radix2 130 -> Rabs (rnd53 x) < bpow radix2 1024.
Proof. intros x H. apply (rnd_bound 53 1024 prec53); [lia|lia|exact H]. Qed.
Lemma ldz_ok : forall z, (Z.abs z < 2 ^ 64)%Z -> B2R (ldz z) = IZR z /\ is_finite (ldz z) = true.
Proof.
  intros z H. unfold ldz. pose proof (binary_normalize_correct 64 16384 prec64 emax16384 mode_NE z 0 false) as C. cbn zeta in C. change (round_mode mode_NE) with ZnearestE in C.
  assert (F : F2R (Float radix2 z 0) = IZR z) by (unfold F2R; cbn; ring). rewrite F in C. rewrite round_generic in C by (try typeclasses eauto; apply int_format; auto; lia).
  rewrite Rlt_bool_true in C; [tauto|]. rewrite <- abs_IZR. apply Rlt_le_trans with (IZR (2 ^ 64)); [apply IZR_lt; auto|]. change (IZR (2 ^ 64)) with (bpow radix2 64). apply bpow_le. lia.
Qed.
Lemma fz_ok : forall z, (Z.abs z < 2 ^ 53)%Z -> B2R (fz z) = IZR z /\ is_finite (fz z) = true.
Proof.
  intros z H. unfold fz, fl. pose proof (binary_normalize_correct 53 1024 prec53 emax1024 mode_NE z 0 false) as C. cbn zeta in C. change (round_mode mode_NE) with ZnearestE in C.
  assert (F : F2R (Float radix2 z 0) = IZR z) by (unfold F2R; cbn; ring). rewrite F in C. rewrite round_generic in C by (try typeclasses eauto; apply int_format; auto; lia).
  rewrite Rlt_bool_true in C; [tauto|]. rewrite <- abs_IZR. apply Rlt_le_trans with (IZR (2 ^ 53)); [apply IZR_lt; auto|]. change (IZR (2 ^ 53)) with (bpow radix2 53). apply bpow_le. lia.
Qed.
Lemma ld_mul_ok : forall x y, is_finite x = true -> is_finite y = true -> Rabs (B2R x * B2R y) <= bpow radix2 130 -> B2R (ld_mul x y) = rnd64 (B2R x * B2R y) /\ is_finite (ld_mul x y) = true.
Proof.
  intros x y Fx Fy H. pose proof (Bmult_correct 64 16384 _ _ mode_NE x y) as C. change (round_mode mode_NE) with ZnearestE in C. rewrite Rlt_bool_true in C by (apply bound64; exact H). rewrite Fx, Fy in C. tauto.
Qed.
Lemma ld_div_ok : forall x y, is_finite x = true -> B2R y <> 0 -> Rabs (B2R x / B2R y) <= bpow radix2 130 -> B2R (ld_div x y) = rnd64 (B2R x / B2R y) /\ is_finite (ld_div x y) = true.
Proof.
  intros x y Fx Hy H. pose proof (Bdiv_correct 64 16384 _ _ mode_NE x y Hy) as C. change (round_mode mode_NE) with ZnearestE in C. rewrite Rlt_bool_true in C by (apply bound64; exact H). rewrite Fx in C. tauto.
Qed.
Lemma fmul_ok : forall x y, is_finite x = true -> is_finite y = true -> Rabs (B2R x * B2R y) <= bpow radix2 130 -> B2R (fmul x y) = rnd53 (B2R x * B2R y) /\ is_finite (fmul x y) = true.
Proof.
  intros x y Fx Fy H. pose proof (Bmult_correct 53 1024 _ _ mode_NE x y) as C. change (round_mode mode_NE) with ZnearestE in C. rewrite Rlt_bool_true in C by (apply bound53; assumption). rewrite Fx, Fy in C. unfold fmul. tauto.
Qed.
Lemma ld_double_ok : forall x, is_finite x = true -> Rabs (B2R x) <= bpow radix2 130 -> B2R (ld_double x) = rnd53 (B2R x) /\ is_finite (ld_double x) = true.
Proof.
  intros [s|s| |s m e H] F B; try discriminate.
  - cbn. rewrite round_0 by typeclasses eauto. auto.
  - unfold ld_double. pose proof (binary_normalize_correct 53 1024 prec53 emax1024 mode_NE (cond_Zopp s (Zpos m)) e s) as C. cbn zeta in C. change (round_mode mode_NE) with ZnearestE in C.
    change (F2R (Float radix2 (cond_Zopp s (Zpos m)) e)) with (B2R (B754_finite s m e H : ld)) in C. rewrite Rlt_bool_true in C by (apply bound53; assumption). tauto.
Qed.
Lemma btrunc : forall prec emax (He : Prec_lt_emax prec emax) (x : binary_float prec emax), Btrunc x = Ztrunc (B2R x).
Proof. intros prec emax He x. apply eq_IZR. rewrite (Btrunc_correct prec emax He). unfold round, scaled_mantissa, cexp, FIX_exp, F2R. cbn. rewrite !Rmult_1_r. reflexivity. Qed.
Global Opaque ldz ld_mul ld_div fmul fz ld_double Btrunc.

(** ** x * y / z for 8-byte numbers *)
Lemma fits64 : forall z, fits I64 z = true -> (Z.abs z <= 2 ^ 63)%Z.
Proof. intros z H. apply fits_spec in H. cbn in *. lia. Qed.
Lemma ld_int_ok : forall x z, is_finite x = true -> Ztrunc (B2R x) = z -> fits I64 z = true -> ld_int I64 x = Ok z.
Proof. intros x z F E H. unfold ld_int. rewrite F, btrunc by typeclasses eauto. rewrite E, H. reflexivity. Qed.
Lemma abs_le_pow : forall z k, (Z.abs z <= 2 ^ k)%Z -> (0 <= k)%Z -> Rabs (IZR z) <= bpow radix2 k.
Proof. intros z k H K. rewrite <- abs_IZR, <- (IZR_Zpower radix2) by auto. apply IZR_le. exact H. Qed.
Lemma div_bound : forall x z k, (1 <= Z.abs z)%Z -> Rabs x <= bpow radix2 k -> Rabs (x / IZR z) <= bpow radix2 k.
Proof.
  intros x z k Hz Hx. assert (P : 1 <= Rabs (IZR z)) by (rewrite <- abs_IZR; change 1 with (IZR 1); apply IZR_le; auto). unfold Rdiv. rewrite Rabs_mult, Rabs_inv.
  apply Rle_trans with (Rabs x); auto. rewrite <- (Rmult_1_r (Rabs x)) at 2. apply Rmult_le_compat_l; [apply Rabs_pos|]. rewrite <- Rinv_1. apply Rinv_le; lra.
Qed.
Lemma wide_exact : forall x y z, fits I64 x = true -> fits I64 y = true -> fits I64 z = true -> z <> 0%Z -> (Z.abs (x * y) < 2 ^ 64)%Z -> fits I64 (Z.quot (x * y) z) = true ->
  ld_int I64 (ld_div (ld_mul (ldz x) (ldz y)) (ldz z)) = Ok (Z.quot (x * y) z).
Proof.
  intros x y z Hx Hy Hz Z0 Hp Hq. apply fits64 in Hx, Hy, Hz. destruct (ldz_ok x) as (X1 & X2); [lia|]. destruct (ldz_ok y) as (Y1 & Y2); [lia|]. destruct (ldz_ok z) as (W1 & W2); [lia|].
  destruct (ld_mul_ok (ldz x) (ldz y) X2 Y2) as (M1 & M2). { rewrite X1, Y1, <- mult_IZR. apply Rle_trans with (bpow radix2 64); [apply abs_le_pow; lia|apply bpow_le; lia]. }
  rewrite X1, Y1, <- mult_IZR in M1. rewrite round_generic in M1 by (try typeclasses eauto; apply int_format; auto; lia).
  destruct (ld_div_ok _ (ldz z) M2) as (D1 & D2). { rewrite W1. apply IZR_neq; auto. } { rewrite M1, W1. apply Rle_trans with (bpow radix2 64); [apply div_bound; [lia|apply abs_le_pow; lia]|apply bpow_le; lia]. }
  rewrite M1, W1 in D1. apply ld_int_ok; auto. rewrite D1. apply (trunc_rnd 64 16384 prec64); lia || exact E64.
Qed.
Lemma mul64_exact : forall D a b, divider_ok I64 D -> fits I64 a = true -> fits I64 b = true -> (Z.abs (a * b) < 2 ^ 64)%Z -> fits I64 (Ztrunc (num D a * num D b * IZR D)) = true ->
  exists c, fp_mul I64 D a b = Ok c /\ truncated D c (num D a * num D b).
Proof.
  intros D a b HD Ha Hb Hp Hq. pose proof HD as (D1 & D2). rewrite mul_num, Ztrunc_div in Hq by lia. exists (Z.quot (a * b) D). split.
  - apply wide_exact; auto; [apply divider_fits; auto|lia].
  - apply truncated_intro; [lia|]. rewrite mul_num, Ztrunc_div by lia. reflexivity.
Qed.
Lemma div64_exact : forall D a b, divider_ok I64 D -> fits I64 a = true -> fits I64 b = true -> b <> 0%Z -> (Z.abs (a * D) < 2 ^ 64)%Z -> fits I64 (Ztrunc (num D a / num D b * IZR D)) = true ->
  exists c, fp_div I64 D a b = Ok c /\ truncated D c (num D a / num D b).
Proof.
  intros D a b HD Ha Hb B0 Hp Hq. pose proof HD as (D1 & D2). rewrite div_num, Ztrunc_div in Hq by lia. exists (Z.quot (a * D) b). split.
  - apply wide_exact; auto. apply divider_fits; auto.
  - apply truncated_intro; [lia|]. rewrite div_num, Ztrunc_div by lia. reflexivity.
Qed.

(* without a bound on the product: less than two units *)
Lemma small_or_0 : forall n d, (Z.abs d <= 2 ^ 64)%Z -> d <> 0%Z -> bpow radix2 (-64) <= Rabs (IZR n / IZR d) \/ IZR n / IZR d = 0.
Proof.
  intros n d Hd D0. destruct (Z.eq_dec n 0) as [->|N]; [right; unfold Rdiv; ring|left]. assert (P : 0 < Rabs (IZR d)) by (apply Rabs_pos_lt, IZR_neq; auto). unfold Rdiv. rewrite Rabs_mult, Rabs_inv.
  apply Rle_trans with (1 * / Rabs (IZR d)).
  - rewrite Rmult_1_l. replace (bpow radix2 (-64)) with (/ bpow radix2 64) by reflexivity. apply Rinv_le; auto. apply abs_le_pow; lia.
  - apply Rmult_le_compat_r; [left; apply Rinv_0_lt_compat; auto|]. rewrite <- abs_IZR. change 1 with (IZR 1). apply IZR_le. lia.
Qed.
Lemma rel_scale : forall e x, 0 <= e -> forall y, Rabs (y - x) <= e * Rabs x -> Rabs y <= (1 + e) * Rabs x /\ (1 - e) * Rabs x <= Rabs y.
Proof. intros e x He y H. pose proof (Rabs_triang_inv y x). pose proof (Rabs_triang_inv x y). rewrite (Rabs_minus_sym x y) in *. lra. Qed.
Lemma u64_pos : 0 <= / 18446744073709551616. Proof. lra. Qed.
Lemma u53_pos : 0 <= / 9007199254740992. Proof. lra. Qed.
Lemma u53'_pos : 0 <= / 9007199254740992 * (1 + / 1024). Proof. lra. Qed.
Lemma pow_split : bpow radix2 (-100) <= / 2 * bpow radix2 (-64). Proof. cbn. lra. Qed.
Lemma wide_near : forall x y z, fits I64 x = true -> fits I64 y = true -> fits I64 z = true -> z <> 0%Z -> Rabs (IZR (x * y) / IZR z) <= 4611686018427387904 ->
  exists c, ld_int I64 (ld_div (ld_mul (ldz x) (ldz y)) (ldz z)) = Ok c /\ Rabs (IZR c - IZR (x * y) / IZR z) < 2.
Proof.
  intros x y z Hx Hy Hz Z0 Hq. apply fits64 in Hx, Hy, Hz. destruct (ldz_ok x) as (X1 & X2); [lia|]. destruct (ldz_ok y) as (Y1 & Y2); [lia|]. destruct (ldz_ok z) as (W1 & W2); [lia|].
  assert (Hxy : (Z.abs (x * y) <= 2 ^ 126)%Z) by nia. assert (Bp : Rabs (IZR (x * y)) <= bpow radix2 126) by (apply abs_le_pow; lia).
  destruct (ld_mul_ok (ldz x) (ldz y) X2 Y2) as (M1 & M2). { rewrite X1, Y1, <- mult_IZR. apply Rle_trans with (bpow radix2 126); [auto|apply bpow_le; lia]. }
  rewrite X1, Y1, <- mult_IZR in M1. set (p := IZR (x * y)) in *. set (d := IZR z) in *. assert (D0 : d <> 0) by (apply IZR_neq; auto).
  assert (Rp : Rabs (rnd64 p - p) <= / 18446744073709551616 * Rabs p).
  { apply rel64. destruct (small_or_0 (x * y) 1) as [H|H]; [lia|lia| |]; fold p in H; unfold Rdiv in H; rewrite Rinv_1, Rmult_1_r in H; [left|right; auto]. eapply Rle_trans; [|exact H]. apply bpow_le. lia. }
  set (q := p / d) in *. set (q1 := rnd64 p / d). assert (Q1 : Rabs (q1 - q) <= / 18446744073709551616 * Rabs q).
  { unfold q1, q, Rdiv. rewrite <- Rmult_minus_distr_r, !Rabs_mult, <- Rmult_assoc. apply Rmult_le_compat_r; [apply Rabs_pos|auto]. }
  destruct (rel_scale _ _ u64_pos _ Q1) as (S1 & S2). pose proof (Rabs_pos q) as Aq.
  destruct (ld_div_ok _ (ldz z) M2) as (D1 & D2). { rewrite W1. exact D0. } { rewrite M1, W1. fold q1. cbn. lra. }
  rewrite M1, W1 in D1. fold q1 in D1.
  assert (R2 : Rabs (rnd64 q1 - q1) <= / 18446744073709551616 * Rabs q1).
  { apply rel64. destruct (small_or_0 (x * y) z) as [H|H]; [lia|lia| |]; fold p d q in H.
    - left. pose proof pow_split. lra.
    - right. rewrite H, Rabs_R0 in Q1. rewrite Rmult_0_r, Rminus_0_r in Q1. pose proof (Rabs_pos q1). destruct (Req_dec q1 0); auto. pose proof (Rabs_pos_lt q1 H1). lra. }
  set (q2 := rnd64 q1) in *. assert (T : Rabs (q2 - q) <= 3 / 4).
  { replace (q2 - q) with ((q2 - q1) + (q1 - q)) by ring. eapply Rle_trans; [apply Rabs_triang|]. lra. }
  exists (Ztrunc q2). pose proof (trunc_err q2) as Te. assert (Fin : Rabs (IZR (Ztrunc q2) - q) < 2). { replace (IZR (Ztrunc q2) - q) with ((IZR (Ztrunc q2) - q2) + (q2 - q)) by ring. eapply Rle_lt_trans; [apply Rabs_triang|]. lra. }
  split; [|exact Fin]. apply ld_int_ok; auto; [rewrite D1; reflexivity|]. apply fits_spec. cbn. apply Rabs_def2 in Fin. pose proof (Rle_abs q). pose proof (Rle_abs (- q)) as An. rewrite Rabs_Ropp in An. split; apply le_IZR; lra.
Qed.
Lemma near_num : forall D c x, (0 < D)%Z -> Rabs (IZR c - x * IZR D) < 2 -> Rabs (num D c - x) < 2 / IZR D.
Proof.
  intros D c x H E. assert (P : 0 < IZR D) by (apply IZR_lt; auto). unfold num. replace (IZR c / IZR D - x) with ((IZR c - x * IZR D) * / IZR D) by (field; lra). rewrite Rabs_mult, (Rabs_pos_eq (/ IZR D)) by (left; apply Rinv_0_lt_compat; auto).
  apply Rmult_lt_compat_r; [apply Rinv_0_lt_compat; auto|exact E].
Qed.
Lemma mul64_near : forall D a b, divider_ok I64 D -> fits I64 a = true -> fits I64 b = true -> Rabs (num D a * num D b * IZR D) <= IZR (2 ^ 62) ->
  exists c, fp_mul I64 D a b = Ok c /\ Rabs (num D c - num D a * num D b) < 2 / IZR D.
Proof.
  intros D a b HD Ha Hb Hq. pose proof HD as (D1 & D2). rewrite mul_num in Hq by lia. destruct (wide_near a b D Ha Hb (divider_fits _ _ HD)) as (c & E & N); [lia|exact Hq|]. exists c. split; [exact E|]. apply near_num; auto. rewrite mul_num by lia. exact N.
Qed.
Lemma div64_near : forall D a b, divider_ok I64 D -> fits I64 a = true -> fits I64 b = true -> b <> 0%Z -> Rabs (num D a / num D b * IZR D) <= IZR (2 ^ 62) ->
  exists c, fp_div I64 D a b = Ok c /\ Rabs (num D c - num D a / num D b) < 2 / IZR D.
Proof.
  intros D a b HD Ha Hb B0 Hq. pose proof HD as (D1 & D2). rewrite div_num in Hq by lia. destruct (wide_near a D b Ha (divider_fits _ _ HD) Hb) as (c & E & N); [lia|exact Hq|]. exists c. split; [exact E|]. apply near_num; auto. rewrite div_num by lia. exact N.
Qed.

(** ** To double and back *)
Lemma d_int_ok : forall t x z, is_finite x = true -> Ztrunc (B2R x) = z -> fits t z = true -> d_int t x = Ok z.
Proof. intros t x z F E H. unfold d_int. rewrite F, btrunc by typeclasses eauto. rewrite E, H. reflexivity. Qed.
Lemma fits_any : forall t z, fits t z = true -> (Z.abs z <= 2 ^ 63)%Z.
Proof. intros t z H. apply fits_spec in H. destruct t; cbn in *; lia. Qed.
Lemma to_double_val : forall D n, (0 < D < 2 ^ 53)%Z -> (Z.abs n <= 2 ^ 63)%Z -> B2R (fp_to_double D n) = rnd53 (rnd64 (num D n)) /\ is_finite (fp_to_double D n) = true.
Proof.
  intros D n HD Hn. destruct (ldz_ok n) as (N1 & N2); [lia|]. destruct (ldz_ok D) as (W1 & W2); [lia|]. assert (B : Rabs (num D n) <= bpow radix2 63) by (apply div_bound; [lia|apply abs_le_pow; lia]).
  destruct (ld_div_ok (ldz n) (ldz D) N2) as (D1 & D2). { rewrite W1. apply IZR_neq. lia. } { rewrite N1, W1. eapply Rle_trans; [exact B|apply bpow_le; lia]. }
  rewrite N1, W1 in D1. fold (num D n) in D1. unfold fp_to_double. destruct (ld_double_ok _ D2) as (E1 & E2).
  - rewrite D1. apply Rle_trans with (bpow radix2 63); [|apply bpow_le; lia]. apply abs_round_le_generic; auto; try typeclasses eauto. apply generic_format_bpow. cbn. lia.
  - rewrite E1, D1. auto.
Qed.
Lemma fmt_53_64 : forall x, is_double x -> generic_format radix2 (SpecFloat.fexp 64 16384) x.
Proof.
  intros x H. change (SpecFloat.fexp 64 16384) with (FLT_exp (SpecFloat.emin 64 16384) 64). change is_double with (generic_format radix2 (FLT_exp (SpecFloat.emin 53 1024) 53)) in H. apply FLT_format_generic in H; [|reflexivity].
  destruct H as [f E1 E2 E3]. apply generic_format_FLT. apply (FLT_spec _ _ _ _ f); auto. { cbn in *. lia. } { cbn in *. lia. }
Qed.
Lemma double_exact : forall t D n, (0 < D < 2 ^ 53)%Z -> fits t n = true -> (Z.abs n < 2 ^ 53)%Z -> is_double (num D n) -> fp_of_double t D (fp_to_double D n) = Ok n.
Proof.
  intros t D n HD Hf Hn Hx. destruct (to_double_val D n HD) as (V & F); [lia|]. rewrite (round_generic _ _ _ (num D n)) in V by (try typeclasses eauto; apply fmt_53_64; auto). rewrite round_generic in V by (try typeclasses eauto; auto).
  destruct (fz_ok D) as (W1 & W2); [lia|]. assert (E : B2R (fp_to_double D n) * B2R (fz D) = IZR n). { rewrite V, W1. unfold num. field. apply IZR_neq. lia. }
  destruct (fmul_ok _ _ F W2) as (M1 & M2). { rewrite E. eapply Rle_trans; [apply (abs_le_pow n 53); lia|apply bpow_le; lia]. }
  rewrite E in M1. rewrite round_generic in M1 by (try typeclasses eauto; apply int_format; auto; lia). apply d_int_ok; auto. rewrite M1. apply Ztrunc_IZR.
Qed.
Lemma double_near : forall t D n, (0 < D < 2 ^ 53)%Z -> fits t n = true -> (Z.abs n <= 2 ^ 51)%Z -> exists m, fp_of_double t D (fp_to_double D n) = Ok m /\ Rabs (num D m - num D n) <= / IZR D /\ (Z.abs m <= Z.abs n)%Z.
Proof.
  intros t D n HD Hf Hn. destruct (to_double_val D n HD) as (V & F); [lia|]. destruct (fz_ok D) as (W1 & W2); [lia|]. set (x := num D n) in *. assert (PD : 0 < IZR D) by (apply IZR_lt; lia).
  assert (S : bpow radix2 (-64) <= Rabs x \/ x = 0) by (apply small_or_0; lia). pose proof (Rabs_pos x) as Ax.
  assert (R1 : Rabs (rnd64 x - x) <= / 18446744073709551616 * Rabs x). { apply rel64. destruct S as [H|H]; [left; eapply Rle_trans; [|exact H]; apply bpow_le; lia|right; auto]. }
  set (x1 := rnd64 x) in *. destruct (rel_scale _ _ u64_pos _ R1) as (S1 & S2).
  assert (R2 : Rabs (rnd53 x1 - x1) <= / 9007199254740992 * Rabs x1). { apply rel53. destruct S as [H|H]; [left; pose proof pow_split; lra|right]. rewrite H, Rabs_R0 in S1. pose proof (Rabs_pos x1). destruct (Req_dec x1 0) as [|N]; auto. pose proof (Rabs_pos_lt x1 N). lra. }
  set (x2 := rnd53 x1) in *. destruct (rel_scale _ _ u53_pos _ R2) as (S3 & S4).
  assert (En : x * IZR D = IZR n) by (unfold x, num; field; lra). assert (Bn : Rabs (IZR n) <= 2251799813685248) by (apply (abs_le_pow n 51); lia).
  assert (An : Rabs (IZR n) = Rabs x * IZR D) by (rewrite <- En, Rabs_mult, (Rabs_pos_eq (IZR D)); lra).
  set (y := x2 * IZR D). assert (T1 : Rabs (x2 - x) <= / 9007199254740992 * (1 + / 1024) * Rabs x). { replace (x2 - x) with ((x2 - x1) + (x1 - x)) by ring. eapply Rle_trans; [apply Rabs_triang|]. lra. }
  assert (T2 : Rabs (y - IZR n) <= / 9007199254740992 * (1 + / 1024) * Rabs (IZR n)). { rewrite An. unfold y. rewrite <- En, <- Rmult_minus_distr_r, Rabs_mult, (Rabs_pos_eq (IZR D)) by lra. rewrite <- Rmult_assoc. apply Rmult_le_compat_r; [lra|exact T1]. }
  destruct (rel_scale _ _ u53'_pos _ T2) as (S5 & S6).
  assert (R3 : Rabs (rnd53 y - y) <= / 9007199254740992 * Rabs y).
  { apply rel53. destruct (Z.eq_dec n 0) as [->|N0]; [right; rewrite Rabs_R0 in S5; pose proof (Rabs_pos y); destruct (Req_dec y 0) as [|N]; auto; pose proof (Rabs_pos_lt y N); lra|left].
    assert (1 <= Rabs (IZR n)) by (rewrite <- abs_IZR; change 1 with (IZR 1); apply IZR_le; lia). cbn. lra. }
  set (z := rnd53 y) in *. assert (T3 : Rabs (z - IZR n) < 1). { replace (z - IZR n) with ((z - y) + (y - IZR n)) by ring. eapply Rle_lt_trans; [apply Rabs_triang|]. lra. }
  destruct (fmul_ok _ _ F W2) as (M1 & M2). { rewrite V, W1. fold y. cbn. lra. }
  rewrite V, W1 in M1. fold y z in M1.
  assert (Mm : (Z.abs (Ztrunc z) <= Z.abs n)%Z /\ (Z.abs (Ztrunc z - n) <= 1)%Z).
  { apply Rabs_def2 in T3. destruct T3 as (T3a & T3b). unfold Ztrunc. destruct (Rlt_bool_spec z 0) as [Hz|Hz].
    - pose proof (Zceil_ub z). assert (IZR (Zceil z) < z + 1) by (unfold Zceil; rewrite opp_IZR; pose proof (Zfloor_ub (- z)); lra). assert (Zceil z <= 0)%Z by (apply Zceil_glb; lra).
      assert (n < Zceil z + 1)%Z by (apply lt_IZR; rewrite plus_IZR; lra). assert (Zceil z < n + 2)%Z by (apply lt_IZR; rewrite plus_IZR; lra). assert (n < 1)%Z by (apply lt_IZR; lra). lia.
    - pose proof (Zfloor_lb z). pose proof (Zfloor_ub z). assert (0 <= Zfloor z)%Z by (apply Zfloor_lub; lra). assert (Zfloor z < n + 1)%Z by (apply lt_IZR; rewrite plus_IZR; lra). assert (n - 2 < Zfloor z)%Z by (apply lt_IZR; rewrite minus_IZR; lra).
      assert (-1 < n)%Z by (apply lt_IZR; lra). lia. }
  destruct Mm as (Mm & Md). exists (Ztrunc z). split; [|split; [|exact Mm]].
  - apply d_int_ok; auto; [rewrite M1; reflexivity|]. apply fits_spec in Hf. apply fits_spec. assert (0 < imax t /\ imin t = - imax t - 1)%Z as (? & ?) by (destruct t; split; reflexivity). lia.
  - unfold x, num. replace (IZR (Ztrunc z) / IZR D - IZR n / IZR D) with (IZR (Ztrunc z - n) * / IZR D) by (rewrite minus_IZR; unfold Rdiv; ring). rewrite Rabs_mult, (Rabs_pos_eq (/ IZR D)) by (left; apply Rinv_0_lt_compat; auto).
    rewrite <- (Rmult_1_l (/ IZR D)) at 2. apply Rmult_le_compat_r; [left; apply Rinv_0_lt_compat; auto|]. rewrite <- abs_IZR. change 1 with (IZR 1). apply IZR_le. auto.
Qed.
