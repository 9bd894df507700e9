(** * Nonlinear least-squares problems: runs that end after one iteration *)
From Coq Require Import Reals Lra Lia Arith List Bool ZArith.
From Verif Require Import Lib_Ring Lib_Real Policy_Model Policy_Spec Lin_Model Lin_Spec Lin_Proofs Lin_Proofs2 Nlin_Model Nlin_Spec Nlin_Proofs.
From Verif Require Optimizer2_Model.
Open Scope R_scope.

Section One.
  Variables (X : Type) (move : X -> vec R -> X) (n m : nat) (e : X -> vec R) (Jac : X -> mat R) (solver : mat R -> R -> vec R -> option (vec R)) (opt : ropt) (po : npolicy X).
  Lemma start_goes : (1 <= o_max opt)%Z -> 0 <= o_dJ opt -> forall x, n_continue X po opt (n_start X m e po opt x) = true.
  Proof.
    intros M J x. unfold n_continue, n_start. cbn [n_it n_fail n_mdx n_dJ n_lsf]. rewrite (proj2 (Z.ltb_lt 0 (o_max opt))) by lia.
    rewrite (proj2 (rlt_true _ _)) by lra. rewrite (proj2 (rlt_true _ _)) by (rewrite Rabs_pos_eq; lra). reflexivity.
  Qed.
  (* an accepted first step *)
  Definition after_one (x : X) (d : vec R) (q : NS X po) : nst X po :=
    mkNst X po (move x d) (n_cost X m e (move x d)) (n_cost X m e (move x d)) (maxabs n d) (n_cost X m e x - n_cost X m e (move x d)) false false 1 0 d q.
  Lemma one_step : (2 <= o_max opt)%Z -> 0 <= o_dJ opt -> forall x d q,
    np_solve X po (np_start X po (n_cost X m e x)) (n_cost X m e x) false x (fun _ => 0) = (true, d, q) ->
    n_cost X m e (move x d) <= n_cost X m e x ->
    maxabs n d <= o_dx opt \/ n_cost X m e x - n_cost X m e (move x d) <= o_dJ opt ->
    n_optimize X move n m e po opt x = Some (after_one x d q) /\
    n_status X po opt (after_one x d q) = if rle (maxabs n d) (o_dx opt) then Optimizer2_Model.DX else Optimizer2_Model.DOBJECTIVE.
  Proof.
    intros M J x d q S C E. unfold n_optimize. destruct (Z.to_nat (o_max opt) + Z.to_nat (o_max opt))%nat as [|f] eqn:F; [lia|]. cbn [n_loop]. rewrite start_goes by (auto; lia).
    assert (n_iteration X move n m e po (n_start X m e po opt x) = after_one x d q) as I.
    { unfold n_iteration, n_start. cbn [n_pol n_J n_pf n_x n_d n_pJ n_lsf n_it n_fail]. rewrite S. destruct (np_reverts X po); [|reflexivity]. rewrite (proj2 (rlt_false _ 0)) by lra. reflexivity. }
    rewrite I. assert (n_continue X po opt (after_one x d q) = false) as N.
    { unfold n_continue, after_one. cbn [n_it n_fail n_mdx n_dJ n_lsf]. rewrite orb_false_r. apply andb_false_iff. right. apply andb_false_iff. rewrite Rabs_pos_eq by lra. destruct E; [left|right]; apply rlt_false; auto. }
    split. { destruct f; cbn [n_loop]; rewrite N; reflexivity. }
    unfold n_status, after_one. cbn [n_it n_fail n_mdx n_dJ n_lsf]. rewrite (proj2 (Z.leb_gt _ _)) by lia. rewrite (proj2 (Z.leb_gt _ _)) by lia. cbn [orb].
    destruct (rle (maxabs n d) (o_dx opt)) eqn:D; auto. apply rle_false in D. destruct E as [E|E]; [lra|]. rewrite Rabs_pos_eq by lra. rewrite (proj2 (rle_true _ _)) by auto. reflexivity.
  Qed.
  (* a step of zeros *)
  Lemma zero_step : (2 <= o_max opt)%Z -> 0 <= o_dJ opt -> 0 <= o_dx opt -> forall x d q,
    np_solve X po (np_start X po (n_cost X m e x)) (n_cost X m e x) false x (fun _ => 0) = (true, d, q) ->
    (forall p, (p < n)%nat -> d p = 0) -> move x d = x ->
    exists l, n_optimize X move n m e po opt x = Some l /\ n_x X po l = x /\ n_status X po opt l = Optimizer2_Model.DX /\ n_it X po l = 1%Z.
  Proof.
    intros M J D x d q S Z V. destruct (one_step M J x d q S) as [A B]; [rewrite V; lra|rewrite V; right; lra|]. exists (after_one x d q). split; auto. split; [exact V|].
    rewrite maxabs_zero in B by auto. rewrite (proj2 (rle_true _ _)) in B by auto. auto.
  Qed.
End One.

Section Stat.
  Variables (X : Type) (move : X -> vec R -> X) (n m : nat) (e : X -> vec R) (Jac : X -> mat R) (solver : mat R -> R -> vec R -> option (vec R)) (opt : ropt).
  Hypothesis So : solves n m solver.
  Hypothesis Oo : (2 <= o_max opt)%Z /\ 0 <= o_dx opt /\ 0 <= o_dJ opt.
  Variable x : X.
  Hypothesis Gr : forall p, (p < n)%nat -> gradient m e Jac x p = 0.
  Hypothesis Mv : forall d, (forall p, (p < n)%nat -> d p = 0) -> move x d = x.

  Lemma damped_zero : forall lam d, eqn X n m e Jac lam x d -> (0 < lam * lam \/ exists mu, margin n m (Jac x) mu) -> forall p, (p < n)%nat -> d p = 0.
  Proof.
    intros lam d E K. apply dot_zero.
    assert (vdot m (mvmul n (Jac x) d) (mvmul n (Jac x) d) + lam * lam * vdot n d d = 0) as Q.
    { rewrite <- AtA. unfold vdot. rewrite <- (@ksum_mul_l R RRing). rewrite <- (@ksum_add R RRing). apply (@ksum_zero R RRing). intros p Hp. specialize (E p Hp). specialize (Gr p Hp).
      unfold n_rhs in E. unfold gradient in Gr. rewrite Gr in E. cbn [kadd kmul k0 RRing] in *.
      replace (d p * mvmul n (mmul m (mtr (Jac x)) (Jac x)) d p + lam * lam * (d p * d p)) with (d p * (mvmul n (mmul m (mtr (Jac x)) (Jac x)) d p + lam * lam * d p)) by ring. rewrite E. ring. }
    pose proof (dot_sq m (mvmul n (Jac x) d)) as P1. pose proof (dot_sq n d) as P2. pose proof (Rle_0_sqr lam) as P3. unfold Rsqr in P3.
    destruct K as [K|(mu & K1 & K2)]; [nra|]. specialize (K2 d). nra.
  Qed.

  Theorem gn_stationary : (exists mu, margin n m (Jac x) mu) -> solver (Jac x) 0 (n_rhs X m e Jac x) <> None ->
    let po := n_gauss_newton X n m e Jac solver in
    exists l, n_optimize X move n m e po opt x = Some l /\ n_x X po l = x /\ n_status X po opt l = Optimizer2_Model.DX /\ n_it X po l = 1%Z.
  Proof.
    intros Mg Sv po. destruct (solver (Jac x) 0 (n_rhs X m e Jac x)) as [d|] eqn:E; [|congruence].
    assert (forall p, (p < n)%nat -> d p = 0) as Z by (apply (damped_zero 0); auto; exact (So _ _ _ _ E)).
    destruct Oo as (O1 & O2 & O3). apply (zero_step X move n m e opt po O1 O3 O2 x d (n_system X n m e Jac x)); auto.
    cbn [np_solve po n_gauss_newton]. unfold gn_solve. cbn [csolve cfresh]. unfold n_reply. rewrite E. reflexivity.
  Qed.
  Theorem ls_stationary : forall step reset sc0, (exists mu, margin n m (Jac x) mu) -> solver (Jac x) 0 (n_rhs X m e Jac x) <> None ->
    let po := n_line_search X n m e Jac solver step reset sc0 in
    exists l, n_optimize X move n m e po opt x = Some l /\ n_x X po l = x /\ n_status X po opt l = Optimizer2_Model.DX /\ n_it X po l = 1%Z.
  Proof.
    intros step reset sc0 Mg Sv po. destruct (solver (Jac x) 0 (n_rhs X m e Jac x)) as [d|] eqn:E; [|congruence].
    assert (forall p, (p < n)%nat -> d p = 0) as Z by (apply (damped_zero 0); auto; exact (So _ _ _ _ E)).
    destruct Oo as (O1 & O2 & O3). eapply (zero_step X move n m e opt po O1 O3 O2 x d); auto.
    cbn [np_solve np_start po n_line_search]. unfold ls_solve. cbn [cpf csolve negb]. rewrite orb_true_r. unfold n_reply. rewrite E. reflexivity.
  Qed.
  Theorem lm_stationary : forall P, 0 < lambdaInit P -> solver (Jac x) (lambdaInit P) (n_rhs X m e Jac x) <> None ->
    let po := n_levenberg_marquardt X n m e Jac solver P in
    exists l, n_optimize X move n m e po opt x = Some l /\ n_x X po l = x /\ n_status X po opt l = Optimizer2_Model.DX /\ n_it X po l = 1%Z.
  Proof.
    intros P Pp Sv po. destruct (solver (Jac x) (lambdaInit P) (n_rhs X m e Jac x)) as [d|] eqn:E; [|congruence].
    assert (forall p, (p < n)%nat -> d p = 0) as Z by (apply (damped_zero (lambdaInit P)); [exact (So _ _ _ _ E)|left; nra]).
    destruct Oo as (O1 & O2 & O3). eapply (zero_step X move n m e opt po O1 O3 O2 x d); auto.
    cbn [np_solve np_start po n_levenberg_marquardt]. unfold n_lm_call, lm_builds, lm_solve. cbn [fst snd lm_base lm_start base_start base_enter bfirst cJ cpf cfresh csolve lambda mu]. unfold n_reply. rewrite E. reflexivity.
  Qed.
End Stat.
