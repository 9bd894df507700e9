(** * Dog-leg steps on linear least-squares problems: algebra of one step *)
From Coq Require Import Reals Lra Lia Arith List Bool ZArith.
From Verif Require Import Lib_Ring Lib_Real Policy_Model Policy_Proofs Policy_Proofs2 DogLeg1_Proofs Lin_Model Lin_Spec Lin_Proofs LinDL_Model LinDL_Spec.
Open Scope R_scope.

Section Alg.
  Variables (n m : nat) (A : mat R) (b : vec R) (mu Lam : R).
  Hypothesis Mg : margin n m A mu.
  Hypothesis Rc : reach n m A Lam.
  Notation Av v := (mvmul n A v).
  Notation H v := (mvmul n (mmul m (mtr A) A) v).
  Notation cost := (cost n m A b).
  Notation g x := (mJte n m A b x).
  Notation nm v := (norm n v).

  Lemma cs_norm : forall u v, vdot n u v <= nm u * nm v.
  Proof.
    intros u v. pose proof (cauchy_schwarz n u v) as C. rewrite <- !norm_sq in C. pose proof (norm_pos n u). pose proof (norm_pos n v). assert (P : 0 <= nm u * nm v) by (apply Rmult_le_pos; auto).
    destruct (Rle_dec (vdot n u v) 0); [lra|]. apply sq_le; [lra|auto|]. replace (nm u * nm v * (nm u * nm v)) with (nm u * nm u * (nm v * nm v)) by ring. exact C.
  Qed.
  Lemma triangle_sub : forall u v, nm (vsub u v) <= nm u + nm v.
  Proof.
    intros u v. pose proof (norm_pos n u). pose proof (norm_pos n v). apply sq_le; [apply norm_pos|lra|]. rewrite norm_sq, dot_sub_l, !dot_sub_r, (dot_comm n v u).
    pose proof (cs_norm u (vscale (-1) v)) as C. rewrite dot_scale_r in C. replace (nm (vscale (-1) v)) with (nm v) in C.
    - rewrite <- !norm_sq. replace ((nm u + nm v) * (nm u + nm v)) with (nm u * nm u + 2 * (nm u * nm v) + nm v * nm v) by ring. lra.
    - symmetry. apply norm_eq; [apply norm_pos|]. rewrite dot_scale_l, dot_scale_r, norm_sq. ring.
  Qed.
  Lemma Lam_pos_of : forall v, 0 < vdot n v v -> mu <= Lam.
  Proof. intros v V. destruct Mg as (M0 & M1). specialize (M1 v). specialize (Rc v). apply Rmult_le_reg_r with (vdot n v v); auto. lra. Qed.
  Lemma H_norm : 0 <= Lam -> forall d, nm (H d) <= Lam * nm d.
  Proof.
    intros L d. pose proof (norm_pos n d) as Nd. pose proof (norm_pos n (H d)) as NH. assert (E : nm (H d) * nm (H d) = vdot m (Av (H d)) (Av d)) by (rewrite norm_sq; apply AtA).
    pose proof (cauchy_schwarz m (Av (H d)) (Av d)) as C. rewrite <- E in C. pose proof (Rc (H d)) as R1. pose proof (Rc d) as R2. rewrite <- (norm_sq n) in R1, R2. pose proof (dot_sq m (Av (H d))) as Q1. pose proof (dot_sq m (Av d)) as Q2.
    set (h := nm (H d)) in *. set (k := nm d) in *. assert (C2 : h * h * (h * h) <= (Lam * (h * h)) * (Lam * (k * k))). { eapply Rle_trans; [apply C|]. apply Rmult_le_compat; auto. }
    destruct (Req_dec h 0) as [Z|Z]; [rewrite Z; apply Rmult_le_pos; auto|]. assert (0 < h) by lra. assert (0 < h * h) by (apply Rmult_lt_0_compat; auto).
    apply sq_le; [lra|apply Rmult_le_pos; auto|]. apply Rmult_le_reg_l with (h * h); auto. replace (h * h * (Lam * k * (Lam * k))) with (Lam * (h * h) * (Lam * (k * k))) by ring. exact C2.
  Qed.
  Lemma gain : forall x d, cost x - cost (vadd x d) = 2 * vdot n d (g x) - vdot m (Av d) (Av d).
  Proof. intros x d. rewrite cost_add. ring. Qed.
  Lemma r_next : 0 <= Lam -> forall x d, nm (g (vadd x d)) <= nm (g x) + Lam * nm d.
  Proof.
    intros L x d. rewrite (norm_ext n (g (vadd x d)) (vsub (g x) (H d))) by (intros p _; apply g_add). eapply Rle_trans; [apply triangle_sub|]. pose proof (H_norm L d). lra.
  Qed.

  Section Step.
    Variables (xs x y : vec R).
    Hypothesis St : stat n m A b xs.
    Hypothesis Y : forall p, (p < n)%nat -> H y p = g x p.
    Hypothesis Pa : 0 < vdot n (g x) (g x).
    Let r := g x. Let a := vdot n r r. Let hr := vdot m (Av r) (Av r).
    Let al := a / hr.
    Let sd := vscale al r.
    Lemma basics : 0 < mu <= Lam /\ mu * a <= hr <= Lam * a /\ 0 < hr.
    Proof. pose proof (Lam_pos_of _ Pa). destruct Mg as (M0 & M1). pose proof (M1 r) as M2. pose proof (Rc r) as R2. fold a hr in M2, R2. assert (0 < mu * a) by (apply Rmult_lt_0_compat; auto). lra. Qed.
    Lemma yr : vdot n y r = vdot m (Av y) (Av y).
    Proof. rewrite <- AtA. apply vdot_ext; [apply veq_refl|]. intros p Hp. symmetry. apply Y; auto. Qed.
    Lemma wr : forall w, vdot n w r = vdot m (Av w) (Av y).
    Proof. intros w. rewrite <- AtA. apply vdot_ext; [apply veq_refl|]. intros p Hp. symmetry. apply Y; auto. Qed.
    Lemma excess_is : cost x - cost xs = vdot n y r.
    Proof.
      assert (S2 : stat n m A b (vadd x y)) by (apply newton_stat; exact Y). pose proof (stat_minimal n m A b _ S2 xs) as M1. pose proof (stat_minimal n m A b _ St (vadd x y)) as M2.
      pose proof (gain x y) as G. fold r in G. rewrite yr in *. lra.
    Qed.
    Lemma excess_le : mu * (cost x - cost xs) <= a.
    Proof.
      rewrite excess_is. destruct basics as ((M0 & _) & _). destruct Mg as (_ & M1). specialize (M1 y). rewrite <- yr in M1. pose proof (cauchy_schwarz n y r) as C. fold a in C. pose proof (dot_sq n y) as Q. set (e := vdot n y r) in *.
      destruct (Rle_dec e 0) as [Z|Z]; [assert (0 < a) by exact Pa; assert (mu * e <= mu * 0) by (apply Rmult_le_compat_l; lra); lra|]. assert (0 < e) by lra.
      apply Rmult_le_reg_l with e; auto. replace (e * (mu * e)) with (mu * (e * e)) by ring. apply Rle_trans with (mu * (vdot n y y * a)); [apply Rmult_le_compat_l; lra|].
      replace (mu * (vdot n y y * a)) with (mu * vdot n y y * a) by ring. apply Rmult_le_compat_r; [apply dot_sq|exact M1].
    Qed.
    Lemma al_pos : 0 < al. Proof. unfold al. apply Rdiv_lt_0_compat; [exact Pa|apply basics]. Qed.
    Lemma al_hr : al * hr = a. Proof. unfold al. field. destruct basics as (_ & _ & B). lra. Qed.
    Lemma al_Lam : 1 <= al * Lam.
    Proof. destruct basics as (_ & (_ & B) & B2). assert (0 < a) by exact Pa. apply Rmult_le_reg_r with a; auto. rewrite Rmult_1_l. rewrite <- al_hr at 1. rewrite Rmult_assoc. apply Rmult_le_compat_l; [apply Rlt_le, al_pos|exact B]. Qed.
    Lemma sdn_eq : nm sd = al * nm r. Proof. apply norm_scale. apply Rlt_le, al_pos. Qed.
    Lemma r_le_sd : nm r <= Lam * nm sd.
    Proof. rewrite sdn_eq. pose proof al_Lam. pose proof (norm_pos n r). rewrite <- (Rmult_1_l (nm r)) at 1. replace (Lam * (al * nm r)) with (al * Lam * nm r) by ring. apply Rmult_le_compat_r; auto. Qed.
    Lemma nr_pos : 0 < nm r. Proof. unfold norm. apply sqrt_lt_R0. exact Pa. Qed.

    (* a shortened steepest descent step *)
    Lemma sd_step : forall de, 0 < de <= nm sd -> let d := vscale (de / nm sd) sd in
      nm d = de /\ de * nm r <= cost x - cost (vadd x d) /\ cost x - cost (vadd x d) = 2 * (de * (2 * nm sd - de) / (2 * al)).
    Proof.
      intros de (D0 & D1) d. pose proof al_pos as Al. pose proof nr_pos as Nr. pose proof sdn_eq as Es. assert (Sp : 0 < nm sd) by lra. set (t := de / nm r).
      assert (Ed : forall p, d p = vscale t r p). { intros p. change (de / nm sd * (al * r p) = de / nm r * r p). rewrite Es. field. lra. }
      assert (Dr : vdot n d r = t * a). { rewrite (vdot_ext n d (vscale t r) r r) by (intros p _; auto). apply dot_scale_l. }
      assert (Dd : vdot m (Av d) (Av d) = t * t * hr).
      { assert (Z : veq m (Av d) (vscale t (Av r))). { intros i _. transitivity (Av (vscale t r) i); [|apply mvmul_scale]. unfold mvmul. apply ksum_ext. intros k _. rewrite Ed. reflexivity. }
        rewrite (vdot_ext m _ _ _ _ Z Z), vdot_scale_l, vdot_scale_r. cbn. fold hr. ring. }
      pose proof (norm_sq n r) as Nq. fold r a in Nq. assert (T0 : 0 < t) by (apply Rdiv_lt_0_compat; auto). assert (T1 : t <= al). { unfold t. apply Rmult_le_reg_r with (nm r); auto. unfold Rdiv. rewrite Rmult_assoc, Rinv_l by lra. rewrite <- Es. lra. }
      assert (Th : t * hr <= a). { rewrite <- al_hr. apply Rmult_le_compat_r; auto. destruct basics as (_ & _ & B). lra. }
      assert (Ta : t * a = de * nm r). { unfold t. rewrite <- Nq. field. lra. }
      rewrite gain. fold r. rewrite Dr, Dd. split; [|split].
      - unfold d. rewrite norm_scale by (apply Rlt_le, Rdiv_lt_0_compat; auto). field. lra.
      - rewrite <- Ta. assert (t * (t * hr) <= t * a) by (apply Rmult_le_compat_l; lra). lra.
      - rewrite Ta, Es. replace (t * t * hr) with (de * de / al).
        + field. lra.
        + assert (Eh : hr = nm r * nm r / al) by (rewrite Nq, <- al_hr; field; lra). rewrite Eh. unfold t. field. lra.
    Qed.
    (* a step between the ends of the two legs *)
    Lemma dl_gain : forall be, 0 <= be <= 1 -> let d := vadd sd (vscale be (vsub y sd)) in al * a <= cost x - cost (vadd x d).
    Proof.
      intros be B d. set (w := vsub y sd) in *. pose proof (gain x d) as G. fold r in G. rewrite G.
      assert (Zy : veq m (Av y) (vadd (Av sd) (Av w))). { intros i _. transitivity (Av (vadd sd w) i); [|apply mvmul_add]. unfold mvmul. apply ksum_ext. intros k _. unfold w, vadd, vsub. cbn. ring. }
      assert (Zd : veq m (Av d) (vadd (Av sd) (vscale be (Av w)))). { intros i _. unfold d. rewrite mvmul_add. unfold vadd. rewrite mvmul_scale. reflexivity. }
      rewrite (vdot_ext m _ _ _ _ Zd Zd), (wr d), (vdot_ext m _ _ _ _ Zd Zy), !vdot_add_l, !vdot_add_r, !vdot_scale_l, !vdot_scale_r. rewrite (vdot_comm m (Av w) (Av sd)).
      assert (S1 : vdot m (Av sd) (Av sd) = al * a).
      { assert (Z : veq m (Av sd) (vscale al (Av r))) by (intros i _; apply mvmul_scale). rewrite (vdot_ext m _ _ _ _ Z Z), vdot_scale_l, vdot_scale_r. cbn. fold hr. rewrite <- al_hr. ring. }
      assert (S2 : vdot m (Av sd) (Av w) = 0).
      { assert (E : vdot n sd r = al * a) by apply dot_scale_l. rewrite wr, (vdot_ext m (Av sd) (Av sd) _ _ (veq_refl m _) Zy), vdot_add_r, S1 in E. cbn in E. lra. }
      rewrite S1, S2. pose proof (dot_sq m (Av w)) as P. set (h := vdot m (Av w) (Av w)) in *. cbn.
      assert (0 <= be * (2 - be) * h) by (repeat apply Rmult_le_pos; lra). replace (be * (be * h)) with (be * be * h) by ring. lra.
    Qed.
    Lemma full_gain : al * a <= cost x - cost (vadd x y).
    Proof.
      pose proof (dl_gain 1 ltac:(lra)) as G. cbn zeta in G. rewrite (cost_ext n m A b (vadd x (vadd sd (vscale 1 (vsub y sd)))) (vadd x y)) in G; [exact G|]. intros i _. unfold vadd, vscale, vsub. cbn. ring.
    Qed.
    Lemma sd_before : nm sd <= nm (vadd sd (vscale (1 / 2) (vsub y sd))).
    Proof.
      apply sq_le; try apply norm_pos. rewrite !norm_sq, dot_add_l, !dot_add_r, !dot_scale_l, !dot_scale_r. set (w := vsub y sd) in *. rewrite (dot_comm n w sd). pose proof (dot_sq n w) as W.
      assert (C : 0 <= vdot n sd w).
      { unfold w. rewrite dot_sub_r. unfold sd at 1 2 3. rewrite !dot_scale_l, dot_scale_r. fold r. pose proof (cauchy_schwarz m (Av r) (Av y)) as Cs. rewrite <- wr in Cs. fold r a hr in Cs. rewrite <- yr in Cs.
        rewrite (dot_comm n r y). pose proof al_pos. fold a. assert (al * a <= vdot n y r); [|assert (0 <= al * (vdot n y r - al * a)) by (apply Rmult_le_pos; lra); lra].
        destruct basics as (_ & _ & B). apply Rmult_le_reg_l with hr; auto. replace (hr * (al * a)) with (al * hr * a) by ring. rewrite al_hr. exact Cs. }
      lra.
    Qed.
    (* the gradient is bounded by the step *)
    Lemma gain_step : forall d, al * a <= cost x - cost (vadd x d) -> a <= 4 * (Lam * Lam) * vdot n d d.
    Proof.
      intros d G. rewrite gain in G. fold r in G. pose proof (dot_sq m (Av d)). pose proof (cauchy_schwarz n d r) as C. fold a in C. assert (Pa' : 0 < a) by exact Pa. pose proof al_Lam as L. destruct basics as ((M0 & ML) & _).
      assert (L1 : a <= Lam * (2 * vdot n d r)). { apply Rle_trans with (Lam * (al * a)); [rewrite <- (Rmult_1_l a) at 1; replace (Lam * (al * a)) with (al * Lam * a) by ring; apply Rmult_le_compat_r; lra|apply Rmult_le_compat_l; lra]. }
      assert (L2 : a * a <= Lam * (2 * vdot n d r) * (Lam * (2 * vdot n d r))) by (apply Rmult_le_compat; lra).
      apply Rmult_le_reg_r with a; auto. apply Rle_trans with (4 * (Lam * Lam) * (vdot n d r * vdot n d r)); [eapply Rle_trans; [apply L2|]; apply Req_le; ring|]. replace (4 * (Lam * Lam) * vdot n d d * a) with (4 * (Lam * Lam) * (vdot n d d * a)) by ring. apply Rmult_le_compat_l; [|exact C].
      pose proof (Rmult_lt_0_compat Lam Lam ltac:(lra) ltac:(lra)). lra.
    Qed.
  End Step.
End Alg.
