(** * Levenberg-Marquardt on nonlinear problems: one step *)
From Coq Require Import Reals Lra Lia Arith List Bool ZArith Psatz.
From Verif Require Import Lib_Ring Lib_Real Policy_Model Policy_Spec Policy_Proofs Lin_Model Lin_Spec Lin_Proofs Lin_Proofs2 Nlin_Model Nlin_Spec Nlin_Proofs GNConv_Proofs LMConv_Spec.
Open Scope R_scope.

Lemma maxabs_sq : forall k v, maxabs k v * maxabs k v <= vdot k v v.
Proof.
  induction k as [|k IH]; intros v; [cbn; lra|]. unfold vdot in *. cbn [maxabs ksum kadd kmul RRing] in *. specialize (IH v). pose proof (dot_sq k v) as D. unfold vdot in D. cbn [kmul RRing] in D.
  unfold Rmax. destruct (Rle_dec _ _).
  - pose proof (Rsqr_abs (v k)) as Q. unfold Rsqr in Q. nra.
  - nra.
Qed.
Lemma norm_sq' : forall k v, norm k v * norm k v = vdot k v v.
Proof. intros. apply sqrt_sqrt. apply dot_sq. Qed.
Lemma norm_nonneg : forall k v, 0 <= norm k v.
Proof. intros. apply sqrt_pos. Qed.

Section Step.
  Variables (X : Type) (move : X -> vec R -> X) (n m : nat) (e : X -> vec R) (Jac : X -> mat R).
  Notation cost := (n_cost X m e).
  Notation Jd x d := (mvmul n (Jac x) d).
  Lemma adj : forall x d y, vdot n d (mvmul m (mtr (Jac x)) y) = vdot m (Jd x d) y.
  Proof. intros. rewrite vdot_mvmul. reflexivity. Qed.
  Lemma rhs_adj : forall x d, vdot n d (n_rhs X m e Jac x) = - vdot m (Jd x d) (e x).
  Proof.
    intros x d. rewrite (vdot_ext n d d _ (vscale (-1) (mvmul m (mtr (Jac x)) (e x)))).
    - rewrite dot_scale_r, adj. ring.
    - intros i _. reflexivity.
    - intros i _. unfold n_rhs, vscale. cbn [kmul RRing]. ring.
  Qed.
  Lemma rhs_dot : forall lam x d, eqn X n m e Jac lam x d -> vdot n d (n_rhs X m e Jac x) = lam * lam * vdot n d d + vdot m (Jd x d) (Jd x d).
  Proof.
    intros lam x d E. rewrite <- AtA. rewrite (vdot_ext n d d _ (vadd (vscale (lam * lam) d) (mvmul n (mmul m (mtr (Jac x)) (Jac x)) d))).
    - rewrite dot_add_r, dot_scale_r. ring.
    - intros i _. reflexivity.
    - intros i Hi. specialize (E i Hi). unfold vadd, vscale. cbn [kadd kmul RRing] in *. lra.
  Qed.
  (* the denominator of the gain ratio *)
  Definition den (lam : R) (x : X) (d : vec R) : R := vdot n d (vadd (vscale lam d) (n_rhs X m e Jac x)).
  Lemma den_eq : forall lam x d, den lam x d = lam * vdot n d d + vdot n d (n_rhs X m e Jac x).
  Proof. intros. unfold den. rewrite dot_add_r, dot_scale_r. reflexivity. Qed.
  Lemma den_ge : forall lam x d, 0 < lam -> eqn X n m e Jac lam x d -> lam * lam * vdot n d d <= den lam x d.
  Proof. intros lam x d L E. rewrite den_eq, (rhs_dot lam x d E). pose proof (dot_sq n d). pose proof (dot_sq m (Jd x d)). nra. Qed.
  (* the linearised cost *)
  Lemma model : forall lam x d, eqn X n m e Jac lam x d -> let w := vadd (e x) (Jd x d) in vdot m w w = cost x - vdot n d (n_rhs X m e Jac x) - lam * lam * vdot n d d.
  Proof.
    intros lam x d E w. unfold w, n_cost. rewrite dot_add_l, !dot_add_r, (dot_comm m (e x) (Jd x d)). pose proof (rhs_adj x d) as A. pose proof (rhs_dot lam x d E) as B. lra.
  Qed.
  Variables (c K : R).
  Hypothesis (c0 : 0 <= c) (K0 : 0 <= K).
  (* the change of the cost that the linearisation does not show is at most M |d|^2 *)
  Definition MM : R := 2 * K * sqrt c + K * K * c.
  Lemma MM_pos : 0 <= MM.
  Proof. unfold MM. pose proof (sqrt_pos c). assert (0 <= K * sqrt c) by (apply Rmult_le_pos; auto). assert (0 <= K * K * c) by (apply Rmult_le_pos; [apply Rmult_le_pos|]; auto). lra. Qed.
  Lemma next_cost : forall lam x d, 1 <= lam -> cost x <= c -> curved n m move e Jac K x -> eqn X n m e Jac lam x d ->
    cost (move x d) <= cost x - vdot n d (n_rhs X m e Jac x) - lam * lam * vdot n d d + MM * vdot n d d.
  Proof.
    intros lam x d L Cx Cu E. pose proof (model lam x d E) as Mo. cbv zeta in Mo. set (w := vadd (e x) (Jd x d)) in *. pose proof (rhs_dot lam x d E) as Rd. rewrite Rd in *.
    set (D := vdot n d d) in *. pose proof (dot_sq n d) as D0. fold D in D0. pose proof (dot_sq m (Jd x d)) as J0. pose proof (dot_sq m w) as W0.
    assert (D <= lam * lam * D) as Dl. { assert (1 <= lam * lam) by nra. assert (0 <= (lam * lam - 1) * D) by (apply Rmult_le_pos; lra). lra. }
    assert (D <= c) as Dc by lra.
    assert (vdot m w w <= c) as Wc by lra.
    specialize (Cu d). set (r := vsub (vsub (e (move x d)) (e x)) (Jd x d)) in *. fold D in Cu.
    assert (cost (move x d) = vdot m w w + 2 * vdot m w r + vdot m r r) as Q.
    { unfold n_cost. rewrite (vdot_ext m _ (vadd w r) _ (vadd w r)) by (intros i _; unfold w, r, vadd, vsub; cbn; ring). rewrite dot_add_l, !dot_add_r, (dot_comm m r w). ring. }
    pose proof (dot_le m w r) as CS. pose proof (norm_sq' m w) as Nw. pose proof (norm_sq' m r) as Nr. pose proof (norm_nonneg m w) as Pw. pose proof (norm_nonneg m r) as Pr.
    assert (norm m w <= sqrt c) as Ws by (unfold norm; apply sqrt_le_1_alt; auto).
    assert (norm m w * norm m r <= sqrt c * (K * D)) as T1 by (apply Rmult_le_compat; auto).
    assert (norm m r * norm m r <= (K * D) * (K * D)) as T2 by (apply Rmult_le_compat; auto).
    assert ((K * D) * (K * D) <= K * K * c * D) as T3. { replace ((K * D) * (K * D)) with (K * K * D * D) by ring. replace (K * K * c * D) with (K * K * D * c) by ring. apply Rmult_le_compat_l; auto. apply Rmult_le_pos; auto. apply Rmult_le_pos; auto. }
    rewrite Q, Mo. unfold MM. lra.
  Qed.
  (* a damping from which on every step is accepted *)
  Definition big : R := 1 + 2 * MM.
  Lemma trusted : forall lam x d, big <= lam -> cost x <= c -> curved n m move e Jac K x -> eqn X n m e Jac lam x d -> cost (move x d) <= cost x - den lam x d / 2.
  Proof.
    intros lam x d L Cx Cu E. pose proof MM_pos as M0. unfold big in L. pose proof (next_cost lam x d ltac:(lra) Cx Cu E) as N. rewrite den_eq. rewrite (rhs_dot lam x d E) in *.
    set (D := vdot n d d) in *. pose proof (dot_sq n d) as D0. fold D in D0. pose proof (dot_sq m (Jd x d)) as J0.
    assert (0 <= (lam * lam + lam * lam / 2 - lam / 2 - MM) * D) as T by (apply Rmult_le_pos; auto; nra). lra.
  Qed.
End Step.
