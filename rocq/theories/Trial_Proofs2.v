(** * C90: on a parabola the trial point is the minimiser *)
From Coq Require Import Reals Lra Psatz Bool.
From Verif Require Import Lib_Num LineSearch_Model.
From Verif Require Import Trial_Spec Trial_Proofs.
Open Scope R_scope.

Lemma gamma_clip : forall th d0 d1, 0 <= th * th - d0 * d1 -> cubic_gamma true th d0 d1 = cubic_gamma false th d0 d1.
Proof.
  intros th d0 d1 H. unfold cubic_gamma. cbv zeta. prim. set (u := 1 / cubic_s th d0 d1). clearbody u. f_equal. f_equal. unfold smax. prim.
  destruct (Rltb 0 _) eqn:E; [reflexivity|]. apply Rltb_false in E. assert (0 <= (th * th - d0 * d1) * (u * u)) as Q by (apply Rmult_le_pos; nra). nra.
Qed.
Lemma frac_exact : forall f0 f1 d0 d1 h c, h <> 0 -> 0 < c -> d1 - d0 = c * h -> f1 - f0 = (d0 + d1) / 2 * h ->
  let th := 3 * (f0 - f1) / h + d0 + d1 in let g := gam h th d0 d1 in (g - d0 + th) / (g - d0 + g + d1) = d0 / (d0 - d1) /\ g = (d1 - d0) / 2 /\ 0 <= th * th - d0 * d1.
Proof.
  intros f0 f1 d0 d1 h c Hn C0 D F th g.
  assert (th = - (d0 + d1) / 2) as T. { unfold th. replace (f0 - f1) with (- ((d0 + d1) / 2 * h)) by lra. field. auto. }
  assert (d1 - d0 <> 0) as Dn. { rewrite D. apply Rmult_integral_contrapositive_currified; lra. }
  assert (th * th - d0 * d1 = (d1 - d0) / 2 * ((d1 - d0) / 2)) as Sq by (rewrite T; field).
  assert (g = (d1 - d0) / 2) as G.
  { unfold g, gam. rewrite Sq. change ((d1 - d0) / 2 * ((d1 - d0) / 2)) with (Rsqr ((d1 - d0) / 2)). rewrite sqrt_Rsqr_abs.
    destruct (Rltb h 0) eqn:E; [apply Rltb_true in E; assert (d1 - d0 < 0) by nra; rewrite Rabs_left by lra; lra|apply Rltb_false in E; assert (0 <= d1 - d0) by nra; rewrite Rabs_pos_eq by lra; lra]. }
  split; [|split; auto].
  - rewrite G, T. field; repeat split; lra.
  - rewrite Sq. apply Rle_0_sqr.
Qed.

Section Exact.
  Variables (v : dc R) (fp dp stpmin stpmax c m e : R).
  Hypothesis (Br : bracket v) (Dp : dp <> 0) (C0 : 0 < c).
  Hypothesis (Fx : fx v = parabola c m e (stx v)) (Dx : dx v = parabola' c m (stx v)) (Fp : fp = parabola c m e (stp v)) (Ep : dp = parabola' c m (stp v)).
  Notation h := (stp v - stx v).
  Notation new := (dcstep_new v fp dp stpmin stpmax).
  Lemma hn : h <> 0. Proof. destruct Br as [B _]. nra. Qed.
  Lemma dn : dx v <> 0. Proof. destruct Br as [B _]. nra. Qed.
  Lemma slopes : dp - dx v = c * h. Proof. rewrite Dx, Ep. unfold parabola'. ring. Qed.
  Lemma values : fp - fx v = (dx v + dp) / 2 * h. Proof. rewrite Fx, Fp, Dx, Ep. unfold parabola, parabola'. field. Qed.
  Lemma diffn : dp - dx v <> 0. Proof. rewrite slopes. apply Rmult_integral_contrapositive_currified; [lra|apply hn]. Qed.
  Lemma secant : stp v + dp / (dp - dx v) * (stx v - stp v) = m.
  Proof. pose proof diffn. pose proof hn. replace (dp / (dp - dx v)) with (dp / (c * h)) by (rewrite slopes; auto). rewrite Ep. unfold parabola'. field; repeat split; lra. Qed.

  Lemma exact1 : fx v < fp -> new = (m, true).
  Proof.
    intros F. pose proof dn as Dn. pose proof hn as Hn. pose proof diffn as Df. unfold dcstep_new. cbv zeta. prim. rewrite (proj2 (Rltb_true _ _) F).
    rewrite gamma_eq by auto. unfold cubic_theta. prim. rewrite (shift_lt (stp v)).
    pose proof (frac_exact (fx v) fp (dx v) dp h c Hn C0 slopes values) as [P _]. cbv zeta in P. unfold gam in P. rewrite P.
    assert (stx v + dx v / (dx v - dp) * h = m) as E1. { rewrite <- secant. field; repeat split; lra. }
    assert (stx v + dx v / ((fx v - fp) / h + dx v) / 2 * h = m) as E2.
    { rewrite <- E1. replace ((fx v - fp) / h) with (- ((dx v + dp) / 2)). 2:{ apply Rmult_eq_reg_r with h; auto. unfold Rdiv at 2. rewrite (Rmult_assoc (fx v - fp)), Rinv_l by auto. pose proof values. lra. } field; repeat split; lra. }
    rewrite E1, E2. clear P. f_equal. destruct (Rltb _ _); field.
  Qed.
  Lemma back : 3 * (fx v - fp) / h + dx v + dp = 3 * (fp - fx v) / (stx v - stp v) + dp + dx v.
  Proof. pose proof hn. field. lra. Qed.
  Lemma fracback : let th := 3 * (fx v - fp) / h + dx v + dp in let g := gam (stx v - stp v) th (dx v) dp in
    (g - dp + th) / (g - dp + g + dx v) = dp / (dp - dx v) /\ g = (dx v - dp) / 2 /\ 0 <= th * th - dx v * dp.
  Proof.
    cbv zeta. pose proof hn. assert (dx v - dp = c * (stx v - stp v)) as S by (pose proof slopes; lra). assert (fx v - fp = (dp + dx v) / 2 * (stx v - stp v)) as V by (pose proof values; lra).
    pose proof (frac_exact fp (fx v) dp (dx v) (stx v - stp v) c ltac:(lra) C0 S V) as P. cbv zeta in P. unfold gam in *. rewrite <- back, (Rmult_comm dp (dx v)) in P. exact P.
  Qed.
  Lemma exact2 : fp <= fx v -> dx v * dp < 0 -> new = (m, true).
  Proof.
    intros F S. pose proof dn as Dn. pose proof hn as Hn. unfold dcstep_new. cbv zeta. prim. rewrite (proj2 (Rltb_false _ _) F). rewrite sgn_neg, (proj2 (Rltb_true _ _) S).
    rewrite gamma_eq by auto. unfold cubic_theta. prim. rewrite (shift_lt (stx v)).
    pose proof fracback as [P _]. cbv zeta in P. unfold gam in P. rewrite P, secant. clear P. destruct (Rltb _ _); reflexivity.
  Qed.
  Lemma shorter : 0 < dx v * dp -> Rabs dp < Rabs (dx v).
  Proof.
    intros S. pose proof (proj1 Br) as B. pose proof slopes as Sl. pose proof hn as Hn. destruct (Rdichotomy _ _ Hn) as [G|G].
    - assert (0 < dx v) by nra. assert (0 < dp) by nra. rewrite !Rabs_pos_eq by lra. nra.
    - assert (dx v < 0) by nra. assert (dp < 0) by nra. rewrite !Rabs_left by lra. nra.
  Qed.
  Lemma exact3 : fp <= fx v -> 0 < dx v * dp -> brackt v = false -> new = (Rmax (Rmin stpmax m) stpmin, false).
  Proof.
    intros F S Bk. pose proof dn as Dn. pose proof hn as Hn. pose proof diffn as Df. unfold dcstep_new. cbv zeta. prim. rewrite (proj2 (Rltb_false _ _) F). rewrite sgn_neg, (proj2 (Rltb_false _ _) (Rlt_le _ _ S)), (proj2 (Rltb_true _ _) (shorter S)), Bk.
    pose proof fracback as (P & G & Ge). cbv zeta in P, G, Ge. unfold gam in P, G. unfold cubic_theta. prim. rewrite gamma_clip by exact Ge. rewrite gamma_eq by auto. rewrite (shift_lt (stx v)). rewrite G in *. clear G.
    assert (forall a b d : R, a - b + a + d = a + (d - b) + a) as Re by (intros; ring). rewrite Re in P. rewrite P, secant.
    assert (Reqb ((dx v - dp) / 2) 0 = false) as ->. { apply Reqb_false. lra. }
    assert (Rltb (dp / (dp - dx v)) 0 = true) as ->.
    { apply Rltb_true. pose proof (shorter S) as Sh. destruct (Rdichotomy _ _ Dp).
      - assert (dx v < 0) by nra. rewrite !Rabs_left in Sh by lra. replace (dp / (dp - dx v)) with (- (- dp / (dp - dx v))) by (field; lra). assert (0 < - dp / (dp - dx v)) by (apply Rdiv_lt_0_compat; lra). lra.
      - assert (0 < dx v) by nra. rewrite !Rabs_pos_eq in Sh by lra. replace (dp / (dp - dx v)) with (- (dp / (dx v - dp))) by (field; lra). assert (0 < dp / (dx v - dp)) by (apply Rdiv_lt_0_compat; lra). lra. }
    cbn [andb negb]. f_equal. destruct (Rltb _ _); unfold smax, smin; prim;
    (destruct (Rltb m stpmax) eqn:E; [apply Rltb_true in E; rewrite (Rmin_right stpmax m) by lra|apply Rltb_false in E; rewrite (Rmin_left stpmax m) by lra]);
    (match goal with |- context [Rltb ?a stpmin] => destruct (Rltb a stpmin) eqn:E'; [apply Rltb_true in E'; rewrite Rmax_right by lra|apply Rltb_false in E'; rewrite Rmax_left by lra] end); reflexivity.
  Qed.
  Theorem dcstep_exact : let v' := dcstep v fp dp stpmin stpmax in
    (fx v < fp \/ dx v * dp < 0 -> stp v' = m) /\ (fp <= fx v -> 0 < dx v * dp -> brackt v = false -> stp v' = Rmax (Rmin stpmax m) stpmin).
  Proof.
    intros v'. unfold v', dcstep. cbv zeta. prim. rewrite sgn_neg. destruct (Rltb (fx v) fp) eqn:E1; [apply Rltb_true in E1|apply Rltb_false in E1].
    - rewrite (exact1 E1). cbn [stp]. split; [auto|]. intros; lra.
    - destruct (Rltb (dx v * dp) 0) eqn:E2; [apply Rltb_true in E2|apply Rltb_false in E2].
      + rewrite (exact2 E1 E2). cbn [stp]. split; [auto|]. intros; lra.
      + split; [intros [W|W]; lra|]. intros _ S Bk. rewrite (exact3 E1 S Bk). reflexivity.
  Qed.
End Exact.
