(** * Gauss-Newton from a good first guess: proofs *)
From Coq Require Import Reals Lra Lia Arith List Bool ZArith.
From Verif Require Import Lib_Ring Lib_Real Policy_Model Policy_Proofs Lin_Model Lin_Proofs Lin_Proofs2 Nlin_Model Nlin_Spec Nlin_Proofs GNConv_Spec.
From Verif Require Optimizer2_Model.
Open Scope R_scope.

Lemma dot_le : forall k (u v : vec R), vdot k u v <= norm k u * norm k v.
Proof.
  intros k u v. pose proof (cauchy_schwarz k u v) as C. rewrite <- !norm_sq in C. pose proof (norm_pos k u). pose proof (norm_pos k v).
  assert (0 <= norm k u * norm k v) by (apply Rmult_le_pos; auto). apply Rnot_lt_le. intros L. nra.
Qed.
Lemma norm_triangle : forall k (u v : vec R), norm k (vadd u v) <= norm k u + norm k v.
Proof.
  intros k u v. apply sq_le; [apply norm_pos|pose proof (norm_pos k u); pose proof (norm_pos k v); lra|]. rewrite norm_sq. rewrite dot_add_l, !dot_add_r, (dot_comm k v u). rewrite <- !norm_sq.
  pose proof (dot_le k u v). lra.
Qed.
Lemma norm_opp : forall k (u v : vec R), norm k (vsub u v) = norm k (vsub v u).
Proof. intros k u v. unfold norm. f_equal. rewrite !dot_sub_l, !dot_sub_r, (dot_comm k v u). ring. Qed.

Section Local.
  Variables (n m : nat) (e : vec R -> vec R) (Jac : vec R -> mat R) (solver : mat R -> R -> vec R -> option (vec R)) (xs : vec R) (rho K mu : R).
  Hypothesis Rg : regular n m e Jac xs rho K mu.
  Notation eqn := (eqn (vec R) n m e Jac).
  Notation rs := (norm m (e xs)).

  (* the algebra of one step *)
  Lemma step_dot : forall x d, eqn 0 x d -> let w := vsub (vadd x d) xs in let Jw := mvmul n (Jac x) w in
    vdot m Jw Jw = vdot m Jw (vsub (vsub (e xs) (e x)) (mvmul n (Jac x) (vsub xs x))) - vdot m (vsub Jw (mvmul n (Jac xs) w)) (e xs).
  Proof.
    intros x d E w Jw.
    assert (forall A : mat R, forall v y, vdot n v (mvmul m (mtr A) y) = vdot m (mvmul n A v) y) as Tr by (intros A v y; rewrite vdot_mvmul; reflexivity).
    assert (vdot m Jw (mvmul n (Jac x) d) = - vdot m Jw (e x)) as E1.
    { unfold Jw. rewrite <- AtA, <- !Tr. rewrite (vdot_ext n w w (mvmul n (mmul m (mtr (Jac x)) (Jac x)) d) (vscale (-1) (mvmul m (mtr (Jac x)) (e x)))).
      - rewrite dot_scale_r. ring.
      - intros i _. reflexivity.
      - intros p Hp. specialize (E p Hp). unfold n_rhs in E. unfold vscale. cbn [kmul RRing]. lra. }
    assert (veq m Jw (vsub (mvmul n (Jac x) d) (mvmul n (Jac x) (vsub xs x)))) as E2.
    { intros i _. unfold Jw, w, mvmul, vsub, vadd. cbn [ksub RRing]. rewrite <- (@ksum_sub R RRing). apply ksum_ext. intros j _. cbn. ring. }
    assert (vdot m (mvmul n (Jac xs) w) (e xs) = 0) as E3.
    { rewrite <- Tr. rewrite (vdot_ext n w w _ (vscale 0 w)); [rewrite dot_scale_r; ring|intros i _; reflexivity|].
      intros p Hp. pose proof (rg_stationary _ _ _ _ _ _ _ _ Rg p Hp) as G. unfold gradient in G. rewrite G. unfold vscale. cbn. ring. }
    transitivity (vdot m Jw (vsub (mvmul n (Jac x) d) (mvmul n (Jac x) (vsub xs x)))).
    - apply vdot_ext; auto. intros i _; reflexivity.
    - rewrite !dot_sub_r, dot_sub_l, E1, E3. ring.
  Qed.

  Lemma contract : forall x d, dist n x xs <= rho -> eqn 0 x d ->
    dist n (vadd x d) xs <= rate K mu rs (dist n x xs) * dist n x xs.
  Proof.
    intros x d B E. pose proof (step_dot x d E) as S. cbv zeta in S. destruct (rg_signs _ _ _ _ _ _ _ _ Rg) as (P1 & P2 & P3).
    pose proof (rg_taylor _ _ _ _ _ _ _ _ Rg x B) as T. pose proof (rg_rank _ _ _ _ _ _ _ _ Rg x (vsub (vadd x d) xs) B) as M.
    pose proof (rg_lipschitz _ _ _ _ _ _ _ _ Rg x (vsub (vadd x d) xs) B) as L.
    unfold dist at 1. set (w := vsub (vadd x d) xs) in *. set (Jw := mvmul n (Jac x) w) in *. set (r := vsub (vsub (e xs) (e x)) (mvmul n (Jac x) (vsub xs x))) in *.
    set (dl := dist n x xs) in *. assert (0 <= dl) as D0 by apply norm_pos.
    pose proof (dot_le m Jw r) as C1. assert (- vdot m (vsub Jw (mvmul n (Jac xs) w)) (e xs) <= norm m (vsub Jw (mvmul n (Jac xs) w)) * rs) as C2.
    { pose proof (dot_le m (vscale (-1) (vsub Jw (mvmul n (Jac xs) w))) (e xs)) as C. rewrite dot_scale_l in C.
      assert (norm m (vscale (-1) (vsub Jw (mvmul n (Jac xs) w))) = norm m (vsub Jw (mvmul n (Jac xs) w))) as Nn by (unfold norm; f_equal; rewrite dot_scale_l, dot_scale_r; ring).
      rewrite Nn in C. lra. }
    rewrite <- (norm_sq m) in S. rewrite <- (norm_sq n), <- (norm_sq m) in M. set (a := norm m Jw) in *. set (W := norm n w) in *. assert (0 <= a) as A0 by apply norm_pos. assert (0 <= W) as W0 by apply norm_pos.
    assert (0 <= rs) as R0 by apply norm_pos. set (q := sqrt mu). assert (0 < q) as Q0 by (apply sqrt_lt_R0; auto). assert (q * q = mu) as Q1 by (apply sqrt_sqrt; lra).
    assert (q * W <= a) as H1. { apply sq_le; [apply Rmult_le_pos; lra|auto|]. replace (q * W * (q * W)) with (q * q * (W * W)) by ring. rewrite Q1. exact M. }
    set (A := K / 2 * (dl * dl)) in *. set (Bb := K * dl * rs).
    assert (0 <= A) as Ap by (unfold A; apply Rmult_le_pos; [lra|nra]). assert (0 <= Bb) as Bp by (unfold Bb; repeat apply Rmult_le_pos; auto).
    assert (a * a <= a * A + Bb * W) as H2.
    { assert (a * norm m r <= a * A) by (apply Rmult_le_compat_l; auto).
      assert (norm m (vsub Jw (mvmul n (Jac xs) w)) * rs <= Bb * W). { unfold Bb. replace (K * dl * rs * W) with (K * dl * W * rs) by ring. apply Rmult_le_compat_r; auto. }
      lra. }
    assert (mu * W <= q * A + Bb) as H3.
    { destruct (Rle_lt_or_eq_dec 0 a A0) as [Ha|Ha].
      - assert (q * a <= q * A + Bb) as H4.
        { apply Rmult_le_reg_r with a; auto. assert (q * (a * a) <= q * (a * A + Bb * W)) as H5 by (apply Rmult_le_compat_l; lra). assert (Bb * (q * W) <= Bb * a) by (apply Rmult_le_compat_l; auto).
          replace (q * a * a) with (q * (a * a)) by ring. replace ((q * A + Bb) * a) with (q * a * A + Bb * a) by ring. replace (q * (a * A + Bb * W)) with (q * a * A + Bb * (q * W)) in H5 by ring. lra. }
        assert (q * (q * W) <= q * a) by (apply Rmult_le_compat_l; lra). replace (q * (q * W)) with (mu * W) in H by (rewrite <- Q1; ring). lra.
      - assert (W = 0) as ->. { rewrite <- Ha in H1. nra. } assert (0 <= q * A) by (apply Rmult_le_pos; lra). lra. }
    apply Rmult_le_reg_l with mu; auto. eapply Rle_trans; [exact H3|]. unfold rate. fold q. apply Req_le. unfold A, Bb. rewrite <- Q1. field. lra.
  Qed.

  Lemma rate_mono : forall r a b, 0 <= a <= b -> 0 <= r -> rate K mu r a <= rate K mu r b.
  Proof.
    intros r a b H Hr. destruct (rg_signs _ _ _ _ _ _ _ _ Rg) as (P1 & P2 & P3). unfold rate. apply Rplus_le_compat_r. unfold Rdiv. apply Rmult_le_compat_r.
    - apply Rlt_le, Rinv_0_lt_compat. pose proof (sqrt_lt_R0 mu P3). lra.
    - apply Rmult_le_compat_l; lra.
  Qed.
  Lemma rate_pos : forall r a, 0 <= a -> 0 <= r -> 0 <= rate K mu r a.
  Proof.
    intros r a Ha Hr. destruct (rg_signs _ _ _ _ _ _ _ _ Rg) as (P1 & P2 & P3). pose proof (sqrt_lt_R0 mu P3). unfold rate, Rdiv.
    apply Rplus_le_le_0_compat; (apply Rmult_le_pos; [apply Rmult_le_pos; auto|apply Rlt_le, Rinv_0_lt_compat; lra]).
  Qed.

  Hypothesis Small : rate K mu rs rho < 1.
  Notation q := (rate K mu rs rho).

  (* no other stationary state nearby *)
  Lemma stationary_unique : forall x, dist n x xs <= rho -> (forall p, (p < n)%nat -> gradient m e Jac x p = 0) -> forall p, (p < n)%nat -> x p = xs p.
  Proof.
    intros x B G. assert (eqn 0 x (fun _ => 0)) as E.
    { intros p Hp. unfold n_rhs. specialize (G p Hp). unfold gradient in G. rewrite G. unfold mvmul. rewrite (@ksum_zero R RRing) by (intros; cbn; ring). cbn. ring. }
    pose proof (contract x _ B E) as C. assert (dist n (vadd x (fun _ => 0)) xs = dist n x xs) as D by (apply norm_ext; intros i _; unfold vsub, vadd; cbn; ring). rewrite D in C.
    assert (0 <= dist n x xs) as D0 by apply norm_pos. pose proof (rate_mono rs (dist n x xs) rho (conj D0 B) (norm_pos m _)).
    assert (dist n x xs = 0) as Z by nra. intros p Hp. unfold dist in Z. assert (vdot n (vsub x xs) (vsub x xs) = 0) as Z2 by (rewrite <- norm_sq, Z; ring).
    pose proof (dot_zero n _ Z2 p Hp) as Z3. unfold vsub in Z3. cbn in Z3. lra.
  Qed.

  Hypothesis So : solves n m solver.
  Hypothesis Sw : solver_works n m e Jac solver xs rho.
  Variable opt : ropt.
  Notation po := (gn n m e Jac solver).
  Notation iter := (n_iteration (vec R) vadd n m e po).

  (* one iteration *)
  Lemma gn_iter : forall l, dist n (n_x _ po l) xs <= rho -> n_lsf _ po l = false ->
    n_lsf _ po (iter l) = false /\ n_it _ po (iter l) = (n_it _ po l + 1)%Z /\ n_fail _ po (iter l) = n_fail _ po l /\
    dist n (n_x _ po (iter l)) xs <= rate K mu rs (dist n (n_x _ po l) xs) * dist n (n_x _ po l) xs /\
    n_mdx _ po (iter l) <= dist n (n_x _ po l) xs + dist n (n_x _ po (iter l)) xs /\
    dist n (n_x _ po l) xs <= sqrt (INR n) * n_mdx _ po (iter l) + dist n (n_x _ po (iter l)) xs.
  Proof.
    intros l B Lf. unfold n_iteration. cbn [np_solve gn n_gauss_newton np_reverts]. unfold gn_solve. cbn [csolve cfresh].
    destruct (n_reply (vec R) m e Jac solver (n_x _ po l) 0 (n_d _ po l)) as [ok d] eqn:Rp. cbn [fst snd].
    destruct ok. 2:{ exfalso. unfold n_reply in Rp. destruct (solver (Jac (n_x _ po l)) 0 (n_rhs (vec R) m e Jac (n_x _ po l))) eqn:Es; [discriminate|]. exact (Sw _ B Es). }
    apply (reply_eqn _ _ _ _ _ _ So) in Rp. cbn [n_lsf n_it n_fail n_x n_mdx]. split; auto. split; auto. split; auto. split; [apply contract; auto|].
    set (x := n_x _ po l) in *. split.
    - assert (maxabs n d <= norm n d) as Ma.
      { assert (forall k, (k <= n)%nat -> maxabs k d <= norm n d) as G; [|apply G; auto]. induction k as [|k IH]; intros Hk; cbn [maxabs]; [apply norm_pos|]. apply Rmax_lub; [apply IH; lia|].
        apply sq_le; [apply Rabs_pos|apply norm_pos|]. rewrite norm_sq, <- Rabs_mult, Rabs_pos_eq by apply Rle_0_sqr.
        assert (forall j, (j <= n)%nat -> (k < j)%nat -> d k * d k <= ksum j (fun i => d i * d i)) as G2; [|apply (G2 n); lia].
        induction j as [|j IHj]; intros Hj Hkj; [lia|]. cbn [ksum]. cbn [kadd RRing]. pose proof (Rle_0_sqr (d j)) as Sq. unfold Rsqr in Sq.
        destruct (Nat.eq_dec k j) as [->|Ne]; [|specialize (IHj ltac:(lia) ltac:(lia)); lra]. assert (0 <= ksum j (fun i => d i * d i)) by (apply ksum_nonneg; intros; apply Rle_0_sqr). lra. }
      eapply Rle_trans; [exact Ma|]. assert (norm n d = norm n (vadd (vsub (vadd x d) xs) (vsub xs x))) as -> by (apply norm_ext; intros i _; unfold vsub, vadd; cbn; ring).
      eapply Rle_trans; [apply norm_triangle|]. unfold dist. rewrite (norm_opp n x xs). lra.
    - assert (norm n d <= sqrt (INR n) * maxabs n d) as Nm.
      { pose proof (maxabs_dot n d) as D. pose proof (maxabs_nonneg n d) as N0. unfold norm. rewrite <- (sqrt_square (maxabs n d)) at 1 by auto. rewrite <- sqrt_mult; [|apply pos_INR|nra]. apply sqrt_le_1_alt. exact D. }
      unfold dist at 1. assert (norm n (vsub x xs) = norm n (vsub (vsub (vadd x d) xs) d)) as -> by (apply norm_ext; intros i _; unfold vsub, vadd; cbn; ring).
      assert (norm n (vsub (vsub (vadd x d) xs) d) <= norm n (vsub (vadd x d) xs) + norm n d) as T2.
      { pose proof (norm_triangle n (vsub (vadd x d) xs) (vscale (-1) d)) as T. assert (norm n (vscale (-1) d) = norm n d) as Nd by (unfold norm; f_equal; rewrite dot_scale_l, dot_scale_r; ring). rewrite Nd in T.
        eapply Rle_trans; [|exact T]. apply Req_le. apply norm_ext. intros i _; unfold vsub, vadd, vscale; cbn; ring. }
      unfold dist. lra.
  Qed.
End Local.
