(** * Linear least-squares problems: algebra of one step *)
From Coq Require Import Reals Lra Lia Arith List Bool ZArith.
From Verif Require Import Lib_Ring Lib_Real Policy_Model Lin_Model Lin_Spec.
Open Scope R_scope.

Section Alg.
  Variables (n m : nat) (A : mat R) (b : vec R) (mu : R).
  Hypothesis Mg : margin n m A mu.
  Notation Av v := (mvmul n A v).
  Notation H v := (mvmul n (mmul m (mtr A) A) v).
  Notation cost := (cost n m A b).
  Notation g x := (mJte n m A b x).

  Lemma dot_sq : forall k (v : vec R), 0 <= vdot k v v.
  Proof. intros k v. unfold vdot. induction k as [|k IH]; cbn [ksum]; [cbn; lra|]. cbn in *. pose proof (Rle_0_sqr (v k)) as Q. unfold Rsqr in Q. lra. Qed.
  Lemma dot_zero : forall k (v : vec R), vdot k v v = 0 -> forall p, (p < k)%nat -> v p = 0.
  Proof.
    intros k v. induction k as [|k IH]; intros E p Hp; [lia|]. unfold vdot in *. cbn [ksum] in E. cbn in E, IH. pose proof (dot_sq k v) as S1. unfold vdot in S1. cbn in S1. pose proof (Rle_0_sqr (v k)) as Q. unfold Rsqr in Q.
    destruct (Nat.eq_dec p k) as [->|]; [|apply IH; [lra|lia]]. assert (v k * v k = 0) by lra. apply Rmult_integral in H. destruct H; auto.
  Qed.
  Lemma dot0 : forall k (u v : vec R), (forall p, (p < k)%nat -> v p = 0) -> vdot k u v = 0.
  Proof. intros k u v E. unfold vdot. apply (@ksum_zero R RRing). intros i Hi. rewrite E by auto. cbn. ring. Qed.
  Lemma cauchy_schwarz : forall k (u v : vec R), vdot k u v * vdot k u v <= vdot k u u * vdot k v v.
  Proof.
    intros k u v. set (a := vdot k u u). set (c := vdot k u v). set (w := vdot k v v). destruct (Req_dec w 0) as [Z|Z].
    - assert (c = 0) by (apply dot0, dot_zero; exact Z). rewrite Z, H. lra.
    - pose proof (dot_sq k v) as W. fold w in W. pose proof (dot_sq k (vsub (vscale w u) (vscale c v))) as Q. rewrite vdot_sub_l, !vdot_sub_r, !vdot_scale_l, !vdot_scale_r, (vdot_comm k v u) in Q. fold a c w in Q. cbn in Q.
      assert (w * (w * a) - w * (c * c) - (c * (w * c) - c * (c * w)) = w * (a * w - c * c)) by ring. assert (0 <= w * (a * w - c * c)) by lra. assert (0 < w) by lra. apply Rnot_lt_le. intros L. assert (0 < c * c - a * w) by lra. pose proof (Rmult_lt_0_compat _ _ H1 H2). lra.
  Qed.

  Lemma AtA : forall u v, vdot n u (H v) = vdot m (Av u) (Av v).
  Proof.
    intros u v. rewrite (vdot_ext n u u (H v) (mvmul m (mtr A) (Av v))) by (auto using veq_refl; intros p Hp; apply mvmul_mmul). rewrite vdot_mvmul. reflexivity.
  Qed.
  Lemma gdot : forall u x, vdot n u (g x) = - vdot m (Av u) (err n A b x).
  Proof.
    intros u x. replace (vdot n u (g x)) with (- vdot n u (mvmul m (mtr A) (err n A b x))).
    - rewrite vdot_mvmul. reflexivity.
    - unfold mJte, vdot. rewrite <- (@ksum_opp R RRing n (fun i => kmul (u i) (mvmul m (mtr A) (err n A b x) i)) : _ = Ropp _). apply ksum_ext. intros i _. cbn. ring.
  Qed.
  Lemma err_add : forall x y i, err n A b (vadd x y) i = err n A b x i + Av y i.
  Proof. intros x y i. unfold err. unfold vadd at 1. rewrite mvmul_add. unfold vadd. cbn. ring. Qed.
  Lemma cost_add : forall x y, cost (vadd x y) = cost x - 2 * vdot n y (g x) + vdot m (Av y) (Av y).
  Proof.
    intros x y. unfold Lin_Model.cost. rewrite (vdot_ext m _ (vadd (err n A b x) (Av y)) _ (vadd (err n A b x) (Av y))) by (intros i _; apply err_add).
    rewrite vdot_add_l, !vdot_add_r, gdot, (vdot_comm m (err n A b x) (Av y)). cbn. ring.
  Qed.
  Lemma cost_ext : forall x z, veq n x z -> cost x = cost z.
  Proof. intros x z E. unfold Lin_Model.cost. assert (X : forall i, err n A b x i = err n A b z i) by (intros i; unfold err, vadd; f_equal; unfold mvmul; apply ksum_ext; intros k Hk; rewrite E by auto; reflexivity). apply vdot_ext; intros i _; apply X. Qed.
  Lemma g_add : forall x y p, g (vadd x y) p = g x p - H y p.
  Proof.
    intros x y p. unfold mJte. rewrite (mvmul_mmul m n (mtr A) A y p). transitivity (- (mvmul m (mtr A) (vadd (err n A b x) (Av y)) p)).
    - f_equal. apply (@ksum_ext R RRing). intros k _. rewrite err_add. reflexivity.
    - rewrite mvmul_add. cbn. ring.
  Qed.
  Lemma g_ext : forall x z, veq n x z -> forall p, g x p = g z p.
  Proof. intros x z E p. unfold mJte. f_equal. apply (@ksum_ext R RRing). intros k _. f_equal. unfold err, vadd. f_equal. unfold mvmul. apply ksum_ext. intros j Hj. rewrite E by auto. reflexivity. Qed.

  Definition stat (x : vec R) : Prop := forall p, (p < n)%nat -> g x p = 0.
  (* the distance to the lowest cost *)
  Lemma excess : forall xs x, stat xs -> cost x - cost xs = vdot m (Av (vsub x xs)) (Av (vsub x xs)).
  Proof.
    intros xs x S. rewrite (cost_ext x (vadd xs (vsub x xs))) by (intros i _; unfold vadd, vsub; cbn; ring). rewrite cost_add, (dot0 n _ (g xs)) by exact S. ring.
  Qed.
  Lemma stat_minimal : forall xs, stat xs -> minimal n m A b xs.
  Proof. intros xs S z. pose proof (excess xs z S). pose proof (dot_sq m (Av (vsub z xs))). lra. Qed.
  Lemma newton_stat : forall x y, (forall p, (p < n)%nat -> H y p = g x p) -> stat (vadd x y).
  Proof. intros x y E p Hp. rewrite g_add, E by auto. ring. Qed.
  Lemma H_inj : forall y, (forall p, (p < n)%nat -> H y p = 0) -> forall p, (p < n)%nat -> y p = 0.
  Proof.
    intros y E. apply dot_zero. destruct Mg as (M0 & M1). specialize (M1 y). pose proof (dot_sq n y) as S1. rewrite <- AtA, (dot0 n y (H y) E) in M1.
    destruct (Req_dec (vdot n y y) 0) as [Z|Z]; auto. assert (Z1 : 0 < vdot n y y) by lra. pose proof (Rmult_lt_0_compat _ _ M0 Z1). lra.
  Qed.

  (** one damped step *)
  Section Step.
    Variables (xs x y : vec R) (lam : R).
    Hypothesis S : stat xs.
    Hypothesis Y : forall p, (p < n)%nat -> H y p + lam * lam * y p = g x p.
    Let s := vdot n y y. Let h := vdot m (Av y) (Av y).
    Lemma y_g : vdot n y (g x) = h + lam * lam * s.
    Proof.
      rewrite (vdot_ext n y y (g x) (vadd (H y) (vscale (lam * lam) y))) by (auto using veq_refl; intros p Hp; rewrite <- Y by auto; reflexivity). rewrite vdot_add_r, vdot_scale_r, AtA. reflexivity.
    Qed.
    Lemma decrease : cost x - cost (vadd x y) = h + 2 * (lam * lam) * s.
    Proof. rewrite cost_add, y_g. fold h. ring. Qed.
    Let E0 := vdot m (Av (vsub x xs)) (Av (vsub x xs)). Let d := vsub (vadd x y) xs. Let E1 := vdot m (Av d) (Av d). Let hh := vdot n (H d) (H d).
    Lemma Hd : forall p, (p < n)%nat -> H d p = - (lam * lam * y p).
    Proof.
      intros p Hp. assert (E : g (vadd x y) p = - H d p).
      { rewrite (g_ext (vadd x y) (vadd xs d)) by (intros i _; unfold d, vadd, vsub; cbn; ring). rewrite g_add, S by auto. ring. }
      rewrite g_add in E. pose proof (Y p Hp). lra.
    Qed.
    Lemma hh_ge : mu * E1 <= hh.
    Proof.
      pose proof (cauchy_schwarz n d (H d)) as C. rewrite AtA in C. fold E1 hh in C. destruct Mg as (M0 & M1). pose proof (M1 d) as M2. fold E1 in M2. pose proof (dot_sq m (Av d)) as P1. fold E1 in P1. pose proof (dot_sq n (H d)) as P2. fold hh in P2. pose proof (dot_sq n d) as P3.
      destruct (Req_dec E1 0) as [Z|Z]; [rewrite Z; lra|]. assert (0 < E1) by lra.
      assert (C2 : mu * (E1 * E1) <= E1 * hh). { apply Rle_trans with (mu * (vdot n d d * hh)); [apply Rmult_le_compat_l; lra|]. rewrite <- Rmult_assoc. apply Rmult_le_compat_r; auto. }
      apply Rmult_le_reg_l with E1; auto. lra.
    Qed.
    Lemma contraction : (mu + lam * lam) ^ 2 * E1 <= (lam * lam) ^ 2 * E0.
    Proof.
      assert (Dx : forall p, (p < n)%nat -> lam * lam * vsub x xs p = lam * lam * d p + H d p).
      { intros p Hp. rewrite Hd by auto. unfold d, vsub, vadd. cbn. ring. }
      assert (E : (lam * lam) ^ 2 * E0 = vdot m (Av (vadd (vscale (lam * lam) d) (H d))) (Av (vadd (vscale (lam * lam) d) (H d)))).
      { assert (Z : veq m (Av (vadd (vscale (lam * lam) d) (H d))) (vscale (lam * lam) (Av (vsub x xs)))).
        { intros i _. unfold vscale at 2. rewrite <- mvmul_scale. unfold mvmul. apply ksum_ext. intros k Hk. f_equal. exact (eq_sym (Dx k Hk)). }
        rewrite (vdot_ext m _ _ _ _ Z Z), vdot_scale_l, vdot_scale_r. fold E0. cbn. ring. }
      rewrite E. assert (Z : veq m (Av (vadd (vscale (lam * lam) d) (H d))) (vadd (vscale (lam * lam) (Av d)) (Av (H d)))).
      { intros i _. rewrite mvmul_add, mvmul_scale. reflexivity. }
      rewrite (vdot_ext m _ _ _ _ Z Z), vdot_add_l, !vdot_add_r, !vdot_scale_l, !vdot_scale_r. rewrite (vdot_comm m (Av d) (Av (H d))), <- (AtA (H d) d). fold E1 hh. destruct Mg as (M0 & M1). pose proof (M1 (H d)) as M2. fold hh in M2. pose proof hh_ge as G.
      pose proof (dot_sq m (Av d)) as P1. fold E1 in P1. set (h3 := vdot m (Av (H d)) (Av (H d))) in *. cbn.
      pose proof (Rle_0_sqr lam) as L2. unfold Rsqr in L2. set (l2 := lam * lam) in *.
      assert (l2 * (mu * E1) <= l2 * hh) by (apply Rmult_le_compat_l; auto). assert (mu * (mu * E1) <= mu * hh) by (apply Rmult_le_compat_l; lra).
      replace ((mu + l2) * ((mu + l2) * 1) * E1) with (mu * (mu * E1) + 2 * (l2 * (mu * E1)) + l2 * (l2 * E1)) by ring. lra.
    Qed.
    (* after a short step little is left *)
    Lemma short_step : mu * E1 <= (lam * lam) ^ 2 * s.
    Proof. apply Rle_trans with hh; [apply hh_ge|]. apply Req_le. unfold hh. rewrite (vdot_ext n (H d) (vscale (- (lam * lam)) y) (H d) (vscale (- (lam * lam)) y)) by (intros p Hp; rewrite Hd by auto; unfold vscale; cbn; ring). rewrite vdot_scale_l, vdot_scale_r. fold s. cbn. ring. Qed.
  End Step.

  Lemma maxabs_nonneg : forall k v, 0 <= maxabs k v.
  Proof. induction k as [|k IH]; intros v; cbn [maxabs]; [lra|]. eapply Rle_trans; [apply (IH v)|apply Rmax_l]. Qed.
  Lemma maxabs_le : forall k v p, (p < k)%nat -> Rabs (v p) <= maxabs k v.
  Proof. induction k as [|k IH]; intros v p Hp; [lia|]. cbn [maxabs]. destruct (Nat.eq_dec p k) as [->|]; [apply Rmax_r|]. eapply Rle_trans; [apply IH; lia|apply Rmax_l]. Qed.
  Lemma maxabs_zero : forall k v, (forall p, (p < k)%nat -> v p = 0) -> maxabs k v = 0.
  Proof. induction k as [|k IH]; intros v E; cbn [maxabs]; auto. rewrite IH by (intros; apply E; lia). rewrite E by lia. rewrite Rabs_R0. apply Rmax_left. lra. Qed.
  Lemma maxabs_dot : forall k v, vdot k v v <= INR k * (maxabs k v * maxabs k v).
  Proof.
    intros k v. assert (G : forall j, (j <= k)%nat -> vdot j v v <= INR j * (maxabs k v * maxabs k v)); [|apply G; auto].
    induction j as [|j IH]; intros Hj; unfold vdot in *; cbn [ksum]; [cbn; lra|]. rewrite S_INR. specialize (IH ltac:(lia)). cbn in *. assert (v j * v j <= maxabs k v * maxabs k v); [|lra].
    pose proof (maxabs_le k v j ltac:(lia)) as L. pose proof (Rabs_pos (v j)). replace (v j * v j) with (Rabs (v j) * Rabs (v j)) by (rewrite <- Rabs_mult; apply Rabs_right; apply Rle_ge; exact (Rle_0_sqr (v j))). apply Rmult_le_compat; auto.
  Qed.
End Alg.
