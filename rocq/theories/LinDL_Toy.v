(** * Dog-leg on the line through three measurements of Lin_Toy.v *)
From Coq Require Import Reals Lra Lia Arith List Bool ZArith.
From Verif Require Import Lib_Ring Lib_Real Policy_Model Lin_Model Lin_Spec Lin_Proofs Lin_Proofs2 Lin_Toy LinDL_Model LinDL_Spec LinDL_Proofs2.
From Verif Require Optimizer2_Model.
Open Scope R_scope.

Lemma reach3 : reach 2 3 A3 3.
Proof. intros v. unfold vdot, mvmul, A3, ksum. cbn. pose proof (Rle_0_sqr (v 0%nat - v 1%nat)) as S. unfold Rsqr in S. lra. Qed.
Definition x3 : vec R := fun i => match i with 0%nat => 2 | _ => 3 end.
Lemma stat3 : stat 2 3 A3 b3 x3.
Proof. intros [|[|p]] Hp; [| |lia]; unfold mJte, err, vadd, mtr, mvmul, ksum, A3, b3, x3; cbn; lra. Qed.
Lemma min3 : minimal 2 3 A3 b3 x3. Proof. exact (stat_minimal 2 3 A3 b3 x3 stat3). Qed.
Lemma notmin3 : ~ minimal 2 3 A3 b3 (fun _ => 0).
Proof. intros M. specialize (M x3). destruct far3 as (F1 & F2). fold x3 in F2. lra. Qed.
(* at the minimum the first step is not a number *)
Lemma rest3 : exists l, lin_optimize 2 3 A3 b3 (dog_leg 2 3 A3 b3 solver3 dl_new) opt3 x3 = Some l /\ l_pol _ l = None.
Proof.
  assert (E : dl_solve_on 2 (dl_start dl_new (cost 2 3 A3 b3 x3)) (fun _ => 0) (mkCall (cost 2 3 A3 b3 x3) false (system_at 2 3 A3 b3 x3) (reply solver3 0 (mJte 2 3 A3 b3 x3) (fun _ => 0))) = DLNaN).
  { destruct (solver3_ok 0 (mJte 2 3 A3 b3 x3)) as (y & Ey & _). unfold reply. rewrite Ey. unfold dl_solve_on. cbn [cpf cfresh csolve negb andb rJtJr rhs system_at fst snd].
    assert (Z1 : vdot 2 (mJte 2 3 A3 b3 x3) (mJte 2 3 A3 b3 x3) = 0) by (apply dot0; exact stat3).
    assert (Z2 : vdot 3 (mvmul 2 A3 (mJte 2 3 A3 b3 x3)) (mvmul 2 A3 (mJte 2 3 A3 b3 x3)) = 0). { apply dot0. intros p _. apply (@ksum_zero R RRing). intros k Hk. rewrite (stat3 k Hk). cbn. ring. }
    rewrite Z1, Z2. destruct (Req_EM_T 0 0) as [_|Z]; [|contradiction]. cbn [andb base_enter base_start dl_start dl_new d_base bfirst d_delta]. destruct (Req_EM_T 0 0) as [_|Z]; [|contradiction]. reflexivity. }
  set (po := dog_leg 2 3 A3 b3 solver3 dl_new). set (l0 := lin_start 2 3 A3 b3 po opt3 x3).
  assert (Es : p_solve po (l_pol po l0) (l_J po l0) (l_pf po l0) (l_x po l0) (l_d po l0) = (true, (fun _ => 0), None)).
  { change (match dl_solve_on 2 (dl_start dl_new (cost 2 3 A3 b3 x3)) (fun _ => 0) (mkCall (cost 2 3 A3 b3 x3) false (system_at 2 3 A3 b3 x3) (reply solver3 0 (mJte 2 3 A3 b3 x3) (fun _ => 0))) with DLok ok d s' => (ok, d, Some s') | _ => (true, (fun _ => 0), None) end = (true, (fun _ : nat => 0), @None dl)). rewrite E. reflexivity. }
  assert (C0 : lin_continue po opt3 l0 = true) by (apply (start_continues 2 3 A3 b3 opt3 opt3_ok)).
  assert (Ec : cost 2 3 A3 b3 (vadd x3 (fun _ => 0)) = cost 2 3 A3 b3 x3) by (apply cost_ext; intros i _; unfold vadd; cbn; ring).
  assert (E1 : exists l1, lin_iteration 2 3 A3 b3 po l0 = l1 /\ l_pol po l1 = None /\ l_mdx po l1 = 0 /\ l_lsf po l1 = false).
  { eexists. split; [reflexivity|]. unfold lin_iteration. rewrite Es. change (p_reverts po) with true. cbn iota. change (l_pJ po l0) with (cost 2 3 A3 b3 x3). change (l_x po l0) with x3. rewrite Ec.
    rewrite (proj2 (rlt_false _ 0)) by lra. split; [reflexivity|]. split; [apply maxabs_zero; reflexivity|reflexivity]. }
  destruct E1 as (l1 & E1 & P1 & M1 & L1). exists l1. split; [|exact P1]. unfold lin_optimize. change (Z.to_nat (o_max opt3) + Z.to_nat (o_max opt3))%nat with 40%nat. fold po. fold l0. cbn [lin_loop]. rewrite C0, E1.
  assert (C1 : lin_continue po opt3 l1 = false). { unfold lin_continue. rewrite M1, L1, (proj2 (rlt_false _ 0)) by (cbn; lra). cbn [andb orb]. apply andb_false_r. }
  rewrite C1. reflexivity.
Qed.
Lemma numbers_refuted : ~ (forall n m A b mu solver opt s0, margin n m A mu -> solver_ok n m A solver -> opt_ok opt -> forall x l, lin_optimize n m A b (dog_leg n m A b solver s0) opt x = Some l -> l_pol _ l <> None).
Proof. intros H. destruct rest3 as (l & E & N). exact (H 2%nat 3%nat A3 b3 1 solver3 opt3 dl_new margin3 solver3_ok opt3_ok x3 l E N). Qed.
Lemma dl_run_min : forall n m A b mu Lam solver opt s0, margin n m A mu -> reach n m A Lam -> solver_ok n m A solver -> opt_ok opt ->
  forall x xs, minimal n m A b xs -> ~ minimal n m A b x -> solved_by_dog_leg n m A b mu Lam opt solver s0 xs x.
Proof.
  intros n m A b mu Lam solver opt s0 Mg Rc So Oo x xs Mi Nm. destruct (solution n m A b solver So) as (ys & Sy).
  assert (E : cost n m A b ys = cost n m A b xs) by (pose proof (Mi ys); pose proof (stat_minimal n m A b ys Sy xs); lra).
  assert (V : veq n xs ys).
  { intros i Hi. assert (Q : vdot n (vsub xs ys) (vsub xs ys) = 0).
    { pose proof (excess n m A b ys xs Sy) as X. destruct Mg as (M0 & M1). specialize (M1 (vsub xs ys)). pose proof (dot_sq n (vsub xs ys)) as P. destruct (Req_dec (vdot n (vsub xs ys) (vsub xs ys)) 0) as [Z|Z]; auto. assert (0 < mu * vdot n (vsub xs ys) (vsub xs ys)) by (apply Rmult_lt_0_compat; lra). lra. }
    pose proof (dot_zero n _ Q i Hi) as W. unfold vsub in W. cbn in W. lra. }
  apply (dl_run n m A b mu Lam solver opt s0 Mg Rc So Oo xs); auto. intros p Hp. rewrite (g_ext n m A b xs ys V). apply Sy; auto.
Qed.
