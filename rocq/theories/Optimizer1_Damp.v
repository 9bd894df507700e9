(** * C29: the damping after a step that was kept *)
From Coq Require Import ZArith Reals Lra Lia Bool.
From Flocq Require Import Core BinarySingleNaN.
From Verif Require Import Lib_Float Lib_FloatMul Lib_Res Optimizer1_Model.

Lemma one_minus : forall P, is_finite P = true ->
  (is_finite (fsub (fz 1) P) = true /\ val (fsub (fz 1) P) = rnd (1 - val P)%R) \/ (fsub (fz 1) P = inf /\ Bsign P = true /\ (val P < 0)%R).
Proof.
  intros P F. pose proof (Bminus_correct 53 1024 prec53 emax1024 mode_NE (fz 1) P eq_refl F) as C.
  fold (fsub (fz 1) P) in C. change (B2R (fz 1)) with (val (fz 1)) in C. rewrite val_1 in C. fold (val P) in C.
  destruct (Rlt_bool_spec (Rabs (rnd (1 - val P)%R)) (bpow radix2 1024)) as [L|L].
  - left. destruct C as (V & G & _). auto.
  - right. destruct C as (V & G). change (Bsign (fz 1)) with false in *. symmetry in G. apply negb_false_iff in G.
    split; [|split; [exact G|]].
    + destruct (fsub (fz 1) P) as [s|s| |s m e K]; cbn in V; try discriminate. injection V as ->. reflexivity.
    + destruct (Rlt_le_dec (val P) 0) as [N|N]; auto. exfalso. apply Bsign_val in G; auto. assert (Z : val P = 0%R) by lra.
      rewrite Z in L. replace (1 - 0)%R with (val (fz 1)) in L by (rewrite val_1; lra). rewrite rnd_val, val_1, Rabs_R1 in L.
      assert (bpow radix2 0 < bpow radix2 1024)%R as B by (apply bpow_lt; lia). change (bpow radix2 0) with 1%R in B. lra.
Qed.

Lemma fmul_one_r : forall d, is_finite d = true -> fmul d (fz 1) = d.
Proof.
  intros d F. pose proof (Bmult_correct 53 1024 prec53 emax1024 mode_NE d (fz 1)) as C. fold (fmul d (fz 1)) in C.
  assert (E := val_1). unfold val in E. rewrite E, Rmult_1_r in C.
  change (B2R d) with (val d) in C. rewrite rnd_val in C. rewrite Rlt_bool_true in C by (apply val_lt_max; auto).
  destruct C as (V & F1 & S). rewrite F in F1. change (is_finite (fmul d (fz 1)) = true) in F1.
  assert (N1 : is_nan (fmul d (fz 1)) = false) by (destruct (fmul d (fz 1)); auto; discriminate).
  apply B2R_Bsign_inj; auto. rewrite (S N1). destruct (Bsign d); reflexivity.
Qed.

Lemma limit_pos : flt f0 (fl 2028240960365167 (-104)) = true /\ is_finite (fl 2028240960365167 (-104)) = true.
Proof. vm_compute. auto. Qed.
Lemma above_limit : forall l, fgt l (fl 2028240960365167 (-104)) = true -> is_finite l = true -> flt f0 l = true.
Proof.
  intros l L F. destruct limit_pos as [A B]. unfold fgt in L. revert A B L. generalize (fl 2028240960365167 (-104)). intros q A B L.
  apply flt_finite in A; auto. apply flt_finite in L; auto. apply flt_finite; auto. lra.
Qed.

Lemma one_minus_0 : fsub (fz 1) f0 = fz 1.
Proof.
  apply B2R_Bsign_inj; [vm_compute; reflexivity | vm_compute; reflexivity | | vm_compute; reflexivity].
  destruct (one_minus f0 eq_refl) as [(_ & V)|(_ & V & _)]; [|discriminate]. unfold val in V at 1. rewrite V.
  change (val f0) with 0%R. rewrite Rminus_0_r. rewrite <- val_1 at 1. apply rnd_val.
Qed.

Lemma damping_kept : forall W (E : env1 W) o rho l m, lmBeta o = 2%Z -> flt f0 (fdiv (fz 1) (lmGamma o)) = true -> fle (fdiv (fz 1) (lmGamma o)) (fz 1) = true ->
  fgt l (fl 2028240960365167 (-104)) = true -> is_finite l = true ->
  is_finite (v_pow E (fsub (fmul (fz 2) rho) (fz 1)) (lmP o)) = true ->
  let P := v_pow E (fsub (fmul (fz 2) rho) (fz 1)) (lmP o) in
  (fle f0 P = true -> fle (fst (new_lambda E o rho l m)) l = true /\ fle f0 (fst (new_lambda E o rho l m)) = true) /\
  (fle P f0 = true -> fle l (fst (new_lambda E o rho l m)) = true) /\
  (P = f0 -> fst (new_lambda E o rho l m) = l) /\
  (fle (fdiv (fz 1) (lmGamma o)) (fsub (fz 1) P) = true -> fst (new_lambda E o rho l m) = fmul l (fsub (fz 1) P)) /\
  (fgt (fdiv (fz 1) (lmGamma o)) (fsub (fz 1) P) = true -> fst (new_lambda E o rho l m) = fmul l (fdiv (fz 1) (lmGamma o))) /\
  snd (new_lambda E o rho l m) = fz 2.
Proof.
  intros W E o rho l m B U1 U2 L Fl FP. set (u1 := fdiv (fz 1) (lmGamma o)) in *. cbv zeta.
  unfold new_lambda. rewrite L. fold u1. set (P := v_pow E (fsub (fmul (fz 2) rho) (fz 1)) (lmP o)) in *. clearbody P u1. rewrite B. change (2 - 1)%Z with 1%Z.
  rewrite (fmul_one P FP). assert (L0 : flt f0 l = true).
  { apply above_limit; assumption. }
  assert (F1 : is_finite u1 = true). { destruct u1 as [s|[]| |s mm e K]; try discriminate; reflexivity. }
  cbn [fst snd].
  assert (Lu : forall u2, fgt u1 u2 = false -> is_finite u2 = true -> flt f0 u2 = true).
  { intros u2 N F2. apply flt_finite; auto. apply flt_finite in U1; auto. unfold fgt in N.
    destruct (Rlt_le_dec (val u2) (val u1)) as [K|K]; [apply flt_finite in K; auto; congruence | lra]. }
  split; [|split; [|split; [|split; [|split; [|reflexivity]]]]].
  - intros Q. apply fle_finite in Q; auto. change (val f0) with 0%R in Q.
    destruct (one_minus P FP) as [(F2 & V2)|(_ & _ & N)]; [|lra].
    assert (K : fle (fsub (fz 1) P) (fz 1) = true).
    { apply fle_finite; auto. rewrite V2, <- (rnd_val (fz 1)). apply rnd_le. rewrite val_1. lra. }
    destruct (fgt u1 _) eqn:D; cbn [fst]; apply fmul_le; auto.
  - intros Q. apply fle_finite in Q; auto. change (val f0) with 0%R in Q.
    assert (K : fle (fz 1) (fsub (fz 1) P) = true).
    { destruct (one_minus P FP) as [(F2 & V2)|(-> & _)]; [|reflexivity].
      apply fle_finite; auto. rewrite V2, <- (rnd_val (fz 1)). apply rnd_le. rewrite val_1. lra. }
    assert (D : fgt u1 (fsub (fz 1) P) = false).
    { unfold fgt. destruct (flt (fsub (fz 1) P) u1) eqn:D; auto. exfalso.
      destruct (one_minus P FP) as [(F2 & V2)|(X & _)]; [|rewrite X in D; destruct u1 as [s|[]| |[] mm e G]; discriminate].
      apply flt_finite in D; auto. apply fle_finite in K; auto. apply fle_finite in U2; auto. lra. }
    rewrite D. cbn [fst]. apply fmul_ge; auto.
  - intros ->. rewrite one_minus_0.
    assert (D : fgt u1 (fz 1) = false).
    { unfold fgt. destruct (flt (fz 1) u1) eqn:D; auto. apply flt_finite in D; auto. apply fle_finite in U2; auto. lra. }
    rewrite D. rewrite (fmul_one_r l Fl). reflexivity.
  - intros Q. destruct (fgt u1 (fsub (fz 1) P)) eqn:D; [|reflexivity]. exfalso. unfold fgt in D.
    destruct (one_minus P FP) as [(F2 & V2)|(X & _)]; [|rewrite X in D; destruct u1 as [s|[]| |[] mm e G]; discriminate].
    apply flt_finite in D; auto. apply fle_finite in Q; auto. lra.
  - intros Q. rewrite Q. reflexivity.
Qed.
