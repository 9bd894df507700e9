(** * A run of the dog-leg policy in which the Gauss-Newton step of an older state is proposed *)
From Coq Require Import Reals Lra Lia List Bool.
From Verif Require Import Lib_Ring Lib_Real Policy_Model Policy_Spec Policy_Proofs Policy_Proofs2 Policy_Proofs3 Policy_Proofs4 DLStale_Spec.
Open Scope R_scope.

Lemma gn_system_call : forall e de J pf x, de x <> 0 -> e x <> 0 -> gn_system 1 (call_at e de J pf x).
Proof.
  intros e de J pf x Hd He. set (h := de x * de x). assert (0 < h) as Hh. { unfold h. destruct (Rtotal_order (de x) 0) as [|[|]]; nra. }
  assert (forall v : vec R, mvmul 1 (fun _ _ => h) v O = h * v O) as M. { intros v. unfold mvmul. cbn [ksum]. cbn. ring. }
  assert (forall v : vec R, vdot 1 v (mvmul 1 (fun _ _ => h) v) = h * (v O * v O)) as Q. { intros v. rewrite dot1, M. ring. }
  exists (fun _ _ => h). cbn [call_at cfresh csolve snd rhs rJtJr]. split; [|split; [|split]].
  - split; [|split].
    + intros i j Hi Hj. reflexivity.
    + intros v. rewrite Q. pose proof (Rle_0_sqr (v O)). unfold Rsqr in *. apply Rmult_le_pos; lra.
    + intros v H i Hi. assert (i = O) by lia. subst i. rewrite Q in H. apply Rmult_integral in H. destruct H as [H|H]; [lra|]. apply Rmult_integral in H. tauto.
  - rewrite Q. unfold cv, h. ring.
  - intros H. specialize (H O (Nat.lt_0_succ 0)). unfold cv in H. change (- (de x * e x) = 0) in H. apply Ropp_eq_0_compat in H. rewrite Ropp_involutive in H.
    apply Rmult_integral in H. tauto.
  - intros i Hi. assert (i = O) by lia. subst i. rewrite M. unfold cv, h. field. auto.
Qed.

(** an error with e(0) = 10, e'(0) = 1, e(-10) = 4, e'(-10) = -1/10, e(20) = 5 *)
Definition err (x : R) : R := 10 + x + 31 / 3600 * x ^ 2 - 59 / 18000 * x ^ 3 - 1 / 72000 * x ^ 4.
Definition derr (x : R) : R := 1 + 31 / 1800 * x - 59 / 6000 * x ^ 2 - 1 / 18000 * x ^ 3.
Lemma err_derivative : forall x, derivable_pt_lim err x (derr x).
Proof.
  intros x. unfold err.
  pose proof (derivable_pt_lim_id x) as D1.
  assert (forall k n, derivable_pt_lim (fun y => k * y ^ n) x (k * (INR n * x ^ pred n))) as P.
  { intros k n. exact (derivable_pt_lim_scal (fun y => y ^ n) k x _ (derivable_pt_lim_pow x n)). }
  assert (derr x = 0 + 1 + 31 / 3600 * (INR 2 * x ^ 1) - 59 / 18000 * (INR 3 * x ^ 2) - 1 / 72000 * (INR 4 * x ^ 3)) as ->.
  { unfold derr. cbn [INR pow]. field. }
  refine (derivable_pt_lim_minus (fun x => 10 + x + 31 / 3600 * x ^ 2 - 59 / 18000 * x ^ 3) (fun x => 1 / 72000 * x ^ 4) x _ _ _ (P _ 4%nat)).
  refine (derivable_pt_lim_minus (fun x => 10 + x + 31 / 3600 * x ^ 2) (fun x => 59 / 18000 * x ^ 3) x _ _ _ (P _ 3%nat)).
  refine (derivable_pt_lim_plus (fun x => 10 + x) (fun x => 31 / 3600 * x ^ 2) x _ _ _ (P _ 2%nat)).
  exact (derivable_pt_lim_plus (fun _ => 10) (fun x => x) x _ _ (derivable_pt_lim_const 10 x) D1).
Qed.

Lemma call_0 : forall J pf, call_at err derr J pf 0 = mkCall J pf (sys1 (-10) 100) (true, cv (-10)).
Proof.
  intros. unfold call_at, sys1. replace (err 0) with 10 by (unfold err; field). replace (derr 0) with 1 by (unfold derr; field).
  replace (- (1 * 10)) with (-10) by field. replace (1 * (1 * 10) * (1 * (1 * 10))) with 100 by field. replace (- (10) / 1) with (-10) by field. reflexivity.
Qed.
Lemma call_10 : forall J pf, call_at err derr J pf (-10) = mkCall J pf (sys1 (2 / 5) (1 / 625)) (true, cv 40).
Proof.
  intros. unfold call_at, sys1. replace (err (-10)) with 4 by (unfold err; field). replace (derr (-10)) with (- (1 / 10)) by (unfold derr; field).
  replace (- (- (1 / 10) * 4)) with (2 / 5) by field. replace (- (1 / 10) * (- (1 / 10) * 4) * (- (1 / 10) * (- (1 / 10) * 4))) with (1 / 625) by field.
  replace (- (4) / - (1 / 10)) with 40 by field. reflexivity.
Qed.

Lemma dl_stale_run :
  exists s1 s2 s3 d2,
    dl_solve 1 (dl_start dl_new 100) (cv 0) (mkCall 100 false (sys1 (-10) 100) (true, cv (-10))) = DLok true (cv (-10)) s1 /\
    dl_solve 1 s1 (cv (-10)) (mkCall 16 false (sys1 (2 / 5) (1 / 625)) (true, cv 40)) = DLok true d2 s2 /\ d2 O = 30 /\
    dl_solve 1 s2 d2 (mkCall 25 true (sys1 (2 / 5) (1 / 625)) (true, cv 40)) = DLok true (cv (-10)) s3 /\ d_delta s3 = 90.
Proof.
  set (c1 := mkCall 100 false (sys1 (-10) 100) (true, cv (-10))). set (c2 := mkCall 16 false (sys1 (2 / 5) (1 / 625)) (true, cv 40)).
  set (c3 := mkCall 25 true (sys1 (2 / 5) (1 / 625)) (true, cv 40)).
  assert (exists s1, dl_solve 1 (dl_start dl_new 100) (cv 0) c1 = DLok true (cv (-10)) s1 /\ d_delta s1 = 10 /\ d_L0 s1 = 100 /\
    d_base s1 = mkBase 100 100 false /\ d_gn s1 = Some (cv (-10)) /\ d_gnn s1 = 10 /\ d_type s1 = TGN /\ d_dx s1 = cv (-10)) as (s1 & E1 & A1 & A2 & A3 & A4 & A5 & A6 & A7).
  { unfold dl_solve. cbv zeta. cbn [c1 cpf negb andb base_enter dl_start d_base base_start bfirst d_delta cfresh csolve fst snd rJtJr sys1 rhs].
    rewrite dot1. set (sd := vscale (cv (-10) O * cv (-10) O / 100) (cv (-10))).
    assert (sd O = -10) as Sd. { unfold sd, vscale, cv. change (-10 * -10 / 100 * -10 = -10). field. }
    destruct (Req_EM_T 100 0); [lra|]. destruct (Req_EM_T 0 0); [|lra]. cbn [negb]. rewrite andb_false_r.
    assert (norm 1 (vadd sd (vscale (1 / 2) (vsub (cv (-10)) sd))) = 10) as De.
    { rewrite norm1. unfold vadd, vscale, vsub, cv. rewrite Sd. cbn. rewrite Rabs_left; lra. }
    rewrite De. assert (norm 1 (cv (-10)) = 10) as Gn. { rewrite norm1. unfold cv. rewrite Rabs_left; lra. }
    rewrite Gn. unfold rle. decide_if. eexists. split; [reflexivity|].
    cbn. repeat split; auto. }
  assert (exists s2 dx2, dl_solve 1 s1 (cv (-10)) c2 = DLok true dx2 s2 /\ dx2 O = 30 /\ d_delta s2 = 30 /\ d_L0 s2 = 15 / 2 /\
    d_base s2 = mkBase 16 100 false /\ d_gn s2 = Some (cv (-10)) /\ d_gnn s2 = 10 /\ d_type s2 = TSD /\ d_dx s2 O = 30 /\ d_sdn s2 = 40) as (s2 & dx2 & E2 & X2 & B1 & B2 & B3 & B4 & B5 & B6 & B7 & B8).
  { unfold dl_solve. cbv zeta.
    assert (dl_radius 1 s1 (xdiv (get_dJ (base_enter (d_base s1) c2)) (d_L0 s1)) = 30) as R.
    { rewrite A3. unfold base_enter, get_dJ; cbn [cpf cJ bpJ bJ bfirst c2]. rewrite A2. unfold xdiv. decide_if.
      unfold dl_radius. rewrite norm1, A7, A1. unfold xgt, rlt, rle, cv. rewrite (Rabs_left (-10)) by lra. repeat decide_if. lra. }
    rewrite R, A3. cbn [base_enter bfirst c2 cpf negb andb cfresh csolve fst snd rJtJr sys1 rhs].
    rewrite dot1. assert (cv (2 / 5) O * cv (2 / 5) O / (1 / 625) = 100) as -> by (unfold cv; field). set (sd := vscale 100 (cv (2 / 5))).
    assert (sd O = 40) as Sd. { unfold sd, vscale, cv. change (100 * (2 / 5) = 40). field. }
    destruct (Req_EM_T (1 / 625) 0); [lra|].
    assert (norm 1 sd = 40) as Sn. { rewrite norm1, Sd. rewrite Rabs_right; lra. }
    rewrite Sn. unfold rle at 1. destruct (Rle_dec 30 40); [|lra]. destruct (Req_EM_T 30 0); [lra|]. cbn [negb andb].
    assert (vscale (30 / 40) sd O = 30) as Xx. { unfold vscale. rewrite Sd. change (30 / 40 * 40 = 30). lra. }
    eexists. eexists. split; [reflexivity|]. cbn; rewrite ?Xx; repeat split; auto; lra. }
  assert (exists s3, dl_solve 1 s2 dx2 c3 = DLok true (cv (-10)) s3 /\ d_delta s3 = 90) as (s3 & E3 & C1).
  { unfold dl_solve. cbv zeta.
    assert (dl_radius 1 s2 (xdiv (get_dJ (base_enter (d_base s2) c3)) (d_L0 s2)) = 90) as R.
    { rewrite B3. unfold base_enter, get_dJ; cbn [cpf cJ bpJ bJ bfirst c3]. rewrite B2. unfold xdiv. decide_if.
      unfold dl_radius. rewrite norm1, B7, B1. unfold xgt, rlt, rle. rewrite (Rabs_right 30) by lra. repeat decide_if. lra. }
    rewrite R, B3. cbn [base_enter bfirst c3 cpf negb andb]. rewrite B4, B5, B8.
    unfold rle. repeat decide_if. cbn [negb andb]. eexists. split; [reflexivity|]. reflexivity. }
  exists s1, s2, s3, dx2. auto.
Qed.

Lemma dl_stale :
  exists e de : R -> R, (forall x, derivable_pt_lim e x (de x)) /\
  exists s1 s2 s3 d1 d2 d3, let x0 := 0 in let x1 := x0 + d1 O in let x2 := x1 + d2 O in
    (forall J pf, gn_system 1 (call_at e de J pf x0) /\ gn_system 1 (call_at e de J pf x1)) /\
    dl_solve 1 (dl_start dl_new (e x0 ^ 2)) (cv 0) (call_at e de (e x0 ^ 2) false x0) = DLok true d1 s1 /\ e x1 ^ 2 < e x0 ^ 2 /\
    dl_solve 1 s1 d1 (call_at e de (e x1 ^ 2) false x1) = DLok true d2 s2 /\ e x1 ^ 2 < e x2 ^ 2 /\
    dl_solve 1 s2 d2 (call_at e de (e x2 ^ 2) true x1) = DLok true d3 s3 /\
    d3 O = - e x0 / de x0 /\ 0 < slope e de x1 * d3 O /\
    norm 1 (cv (- e x1 / de x1)) < d_delta s3 /\ veq 1 (cauchy 1 (cfresh (call_at e de (e x1 ^ 2) true x1))) (cv (- e x1 / de x1)).
Proof.
  exists err, derr. split; [exact err_derivative|].
  destruct dl_stale_run as (s1 & s2 & s3 & d2 & E1 & E2 & X2 & E3 & D3). exists s1, s2, s3, (cv (-10)), d2, (cv (-10)). cbv zeta. rewrite X2.
  change (cv (-10) O) with (-10). replace (0 + -10) with (-10) by field. replace (-10 + 30) with 20 by field.
  assert (err 0 = 10) as V0 by (unfold err; field). assert (err (-10) = 4) as V1 by (unfold err; field). assert (err 20 = 5) as V2 by (unfold err; field).
  assert (derr 0 = 1) as W0 by (unfold derr; field). assert (derr (-10) = - (1 / 10)) as W1 by (unfold derr; field).
  split. { intros. split; apply gn_system_call; rewrite ?V0, ?V1, ?W0, ?W1; lra. }
  rewrite !call_0, !call_10, V0, V1, V2. replace (10 ^ 2) with 100 by ring. replace (4 ^ 2) with 16 by ring. replace (5 ^ 2) with 25 by ring.
  repeat (split; [first [assumption | lra]|]). unfold slope. rewrite V1, W0, W1. split; [lra|]. split; [lra|]. split.
  - rewrite norm1, D3. unfold cv. replace (- (4) / - (1 / 10)) with 40 by field. rewrite Rabs_right; lra.
  - intros i Hi. unfold cauchy. cbn [cfresh rhs rJtJr sys1]. rewrite dot1. unfold vscale, cv. cbn. field.
Qed.
