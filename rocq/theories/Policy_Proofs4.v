From Coq Require Import Reals Lra Lia List Bool.
From Verif Require Import Lib_Ring Lib_Real Policy_Model Policy_Spec Policy_Proofs Policy_Proofs2 Policy_Proofs3.
Import ListNotations.
Open Scope R_scope.

(** a step computed for a freshly built system lies on the dog-leg path of that system *)
Lemma dl_fresh_path : forall n s dx c ok dx' s', dl_reach n (gn_system n) s dx -> (bfirst (d_base s) = true -> cpf c = false) ->
  fst (csolve c) = true -> gn_system n c -> dl_solve n s dx c = DLok ok dx' s' -> cpf c = false ->
  ok = true /\ dogleg n (cauchy n (cfresh c)) (snd (csolve c)) dx'.
Proof.
  intros n s dx c ok dx' s' H Hf Hok Hg S PF.
  destruct (dl_reach_inv n _ _ _ H) as [I1 I2].
  destruct (dl_step_inv n s dx c ok dx' s') as (Ok' & B & I & Rd & Fr & Pf & Gn & Sd); auto. split; auto.
  assert (dl_reach n (gn_system n) s' dx') as H' by (eapply dl_reach_step; eauto).
  pose proof (dl_reach_pos n s' dx' H' B) as [Q1 Q2 Q3].
  destruct (Fr PF) as (_ & F2 & _). unfold dogleg, cauchy. rewrite <- F2.
  destruct I as [_ v_sd0 _ _ v_path0]. unfold on_path in v_path0. destruct (d_type s') eqn:T.
  - contradiction.
  - left. destruct v_path0 as [[A1 A2] A3]. exists (d_delta s' / d_sdn s'). split; [|subst; intros i Hi; reflexivity]. split.
    + apply Rmult_le_pos; [lra|]. apply Rlt_le, Rinv_0_lt_compat. lra.
    + apply Rmult_le_reg_r with (d_sdn s'); [lra|]. unfold Rdiv. rewrite Rmult_assoc, Rinv_l by lra. lra.
  - right. destruct v_path0 as [A1 A2]. rewrite Gn in A1 by (auto; discriminate). injection A1 as ->. exists 1. repeat split; auto; try lra. intros i Hi. unfold vadd, vscale, vsub.
    change (dx' i = d_sd s' i + 1 * (dx' i - d_sd s' i)). ring.
  - right. destruct v_path0 as (gn & be & A1 & A2 & A3 & A4 & A5). rewrite Gn in A1 by (auto; discriminate). injection A1 as <-. exists be.
    split; [apply A5; apply Q3; discriminate|]. rewrite <- A2. intros i Hi; reflexivity.
Qed.

Lemma cauchy1 : forall g, g <> 0 -> vdot 1 (cv g) (cv g) / (g * g) = 1.
Proof. intros g H. rewrite dot1. unfold cv. field. auto. Qed.

(** every call of that run has a correct Gauss-Newton system *)
Lemma gn_system_1 : forall J pf g, g <> 0 -> gn_system 1 (mkCall J pf (sys1 g (g * g)) (true, cv g)).
Proof.
  intros J pf g Hg. assert (forall v : vec R, vdot 1 v (mvmul 1 mid v) = v O * v O) as Q.
  { intros v. rewrite dot1. unfold mvmul, mid. cbn [ksum]. cbn. ring. }
  exists mid. cbn [cfresh csolve snd rhs rJtJr sys1]. split; [|split; [|split]].
  - split; [|split].
    + intros i j Hi Hj. assert (i = O) by lia. assert (j = O) by lia. subst. reflexivity.
    + intros v. rewrite Q. apply Rle_0_sqr.
    + intros v H i Hi. assert (i = O) by lia. subst. rewrite Q in H. apply Rmult_integral in H. tauto.
  - rewrite Q. unfold cv. ring.
  - intros H. specialize (H O (Nat.lt_0_succ 0)). unfold cv in H. auto.
  - intros i Hi. apply mvmul_id; auto.
Qed.

(** a run of two calls, each with a correct Gauss-Newton system *)
Lemma dl_two_steps :
  let c1 := mkCall 1000 false (sys1 10 (10 * 10)) (true, cv 10) in
  let c2 := mkCall 500 false (sys1 20 (20 * 20)) (true, cv 20) in
  exists s1 s2 dx2, dl_solve 1 (dl_start dl_new 1000) (cv 0) c1 = DLok true (cv 10) s1 /\ dl_solve 1 s1 (cv 10) c2 = DLok true dx2 s2 /\
    veq 1 dx2 (cv 10) /\ d_delta s2 = 10 /\ d_L0 s2 = 150 /\
    d_base s2 = mkBase 500 1000 false /\ d_gn s2 = Some (cv 10) /\ d_gnn s2 = 10 /\ d_type s2 = TSD /\ d_dx s2 O = 10 /\ d_sdn s2 = 20 /\
    dl_reach 1 (gn_system 1) s2 dx2.
Proof.
  intros c1 c2.
  assert (exists s1, dl_solve 1 (dl_start dl_new 1000) (cv 0) c1 = DLok true (cv 10) s1 /\ d_delta s1 = 10 /\ d_L0 s1 = 1000 /\
    d_base s1 = mkBase 1000 1000 false /\ d_gn s1 = Some (cv 10) /\ d_gnn s1 = 10 /\ d_type s1 = TGN /\ d_dx s1 = cv 10) as (s1 & E1 & A1 & A2 & A3 & A4 & A5 & A6 & A7).
  { unfold dl_solve. cbv zeta. cbn [c1 cpf negb andb base_enter dl_start d_base base_start bfirst d_delta cfresh csolve fst snd rJtJr sys1 rhs].
    rewrite cauchy1 by lra. set (sd := vscale 1 (cv 10)).
    assert (sd O = 10) as Sd. { unfold sd, vscale, cv. change (1 * 10 = 10). ring. }
    destruct (Req_EM_T (10 * 10) 0); [lra|]. destruct (Req_EM_T 0 0); [|lra]. cbn [negb]. rewrite andb_false_r.
    assert (norm 1 (vadd sd (vscale (1 / 2) (vsub (cv 10) sd))) = 10) as De.
    { rewrite norm1. unfold vadd, vscale, vsub, cv. rewrite Sd. cbn. rewrite Rabs_right; lra. }
    rewrite De. assert (norm 1 (cv 10) = 10) as Gn. { rewrite norm1. unfold cv. rewrite Rabs_right; lra. }
    rewrite Gn. unfold rle. decide_if. eexists. split; [reflexivity|].
    cbn. repeat split; auto. }
  assert (exists s2 dx2, dl_solve 1 s1 (cv 10) c2 = DLok true dx2 s2 /\ veq 1 dx2 (cv 10) /\ d_delta s2 = 10 /\ d_L0 s2 = 150 /\
    d_base s2 = mkBase 500 1000 false /\ d_gn s2 = Some (cv 10) /\ d_gnn s2 = 10 /\ d_type s2 = TSD /\ d_dx s2 O = 10 /\ d_sdn s2 = 20) as (s2 & dx2 & E2 & X2 & B1 & B2 & B3 & B4 & B5 & B6 & B7 & B8).
  { unfold dl_solve. cbv zeta.
    assert (dl_radius 1 s1 (xdiv (get_dJ (base_enter (d_base s1) c2)) (d_L0 s1)) = 10) as R.
    { rewrite A3. unfold base_enter, get_dJ; cbn [cpf cJ bpJ bJ bfirst c2]. rewrite A2. unfold xdiv. decide_if.
      unfold dl_radius. unfold xgt, xlt, xle, rlt, rle. replace ((1000 - 500) / 1000) with (1 / 2) by lra. repeat decide_if; cbn [andb]; auto. }
    rewrite R, A3. cbn [base_enter bfirst c2 cpf negb andb cfresh csolve fst snd rJtJr sys1 rhs].
    rewrite cauchy1 by lra. set (sd := vscale 1 (cv 20)).
    assert (sd O = 20) as Sd. { unfold sd, vscale, cv. change (1 * 20 = 20). ring. }
    destruct (Req_EM_T (20 * 20) 0); [lra|].
    assert (norm 1 sd = 20) as Sn. { rewrite norm1, Sd. rewrite Rabs_right; lra. }
    rewrite Sn. unfold rle at 1. destruct (Rle_dec 10 20); [|lra]. destruct (Req_EM_T 10 0); [lra|]. cbn [negb andb].
    assert (vscale (10 / 20) sd O = 10) as Xx. { unfold vscale. rewrite Sd. change (10 / 20 * 20 = 10). lra. }
    eexists. eexists. split; [reflexivity|]. split; [|cbn; rewrite ?Xx; repeat split; auto; lra].
    intros i Hi. assert (i = O) by lia. subst. rewrite Xx. reflexivity. }
  exists s1, s2, dx2. repeat split; auto.
  eapply dl_reach_step with (c := c2); [| | | |exact E2]; auto; [|apply gn_system_1; lra].
  eapply dl_reach_step with (c := c1); [apply dl_reach_start| | | |exact E1]; auto. apply gn_system_1; lra.
Qed.

(** a run of three calls, each with a correct Gauss-Newton system: the second step is rejected, and the region grows *)
Lemma dl_rejected_grows :
  let c1 := mkCall 1000 false (sys1 10 (10 * 10)) (true, cv 10) in
  let c2 := mkCall 500 false (sys1 20 (20 * 20)) (true, cv 20) in
  let c3 := mkCall 600 true (sys1 20 (20 * 20)) (true, cv 20) in
  exists s1 dx1 s2 dx2 s3 dx3,
    dl_solve 1 (dl_start dl_new 1000) (cv 0) c1 = DLok true dx1 s1 /\
    dl_solve 1 s1 dx1 c2 = DLok true dx2 s2 /\
    dl_solve 1 s2 dx2 c3 = DLok true dx3 s3 /\
    d_delta s2 = 10 /\ d_delta s3 = 30 /\ veq 1 dx2 (cv 10) /\ veq 1 dx3 (cv 10).
Proof.
  intros c1 c2 c3.
  destruct dl_two_steps as (s1 & s2 & dx2 & E1 & E2 & X2 & B1 & B2 & B3 & B4 & B5 & B6 & B7 & B8 & _).
  assert (exists s3 dx3, dl_solve 1 s2 dx2 c3 = DLok true dx3 s3 /\ d_delta s3 = 30 /\ dx3 = cv 10) as (s3 & dx3 & E3 & C1 & ->).
  { unfold dl_solve. cbv zeta.
    assert (dl_radius 1 s2 (xdiv (get_dJ (base_enter (d_base s2) c3)) (d_L0 s2)) = 30) as R.
    { rewrite B3. unfold base_enter, get_dJ; cbn [cpf cJ bpJ bJ bfirst c3]. rewrite B2. unfold xdiv. decide_if.
      unfold dl_radius. rewrite norm1, B7, B1. unfold xgt, rlt, rle. rewrite (Rabs_right 10) by lra. repeat decide_if. lra. }
    rewrite R, B3. cbn [base_enter bfirst c3 cpf negb andb]. rewrite B4, B5, B8.
    unfold rle. repeat decide_if. cbn [negb andb]. eexists. eexists. split; [reflexivity|]. split; reflexivity. }
  exists s1, (cv 10), s2, dx2, s3, (cv 10). repeat split; auto.
Qed.

(** what the gain ratio does to the radius *)
Lemma dl_radius_rule : forall n s r, dl_inv n s (d_dx s) -> norm n (d_dx s) <= d_delta s ->
  (xlt r (1 / 4) = true -> dl_radius n s r <= d_delta s / 2) /\
  (xgt r (3 / 4) = true -> d_delta s <= dl_radius n s r <= 3 * d_delta s) /\
  (xlt r (1 / 4) = false -> xgt r (3 / 4) = false -> dl_radius n s r = d_delta s).
Proof.
  intros n s r I Nd. split; [|split].
  - intros H. destruct (xle r 0) eqn:E; [apply dl_failure_shrinks; auto|]. unfold dl_radius.
    assert (xgt r (3 / 4) = false) as ->.
    { destruct r; cbn in *; auto; try discriminate. apply rlt_true in H. apply rlt_false. lra. }
    assert (xgt r 0 = true) as ->.
    { destruct r; cbn in *; auto; try discriminate. apply rle_false in E. apply rlt_true. lra. }
    rewrite H. cbn [andb]. lra.
  - intros H. unfold dl_radius. rewrite H. pose proof (norm_pos n (d_dx s)). destruct I. 
    destruct (rle (d_delta s) (3 * norm n (d_dx s))) eqn:E; [apply rle_true in E|]; lra.
  - intros H1 H2. unfold dl_radius. rewrite H1, H2, Bool.andb_false_r.
    assert (xle r 0 = false) as ->; auto.
    destruct r; cbn in *; auto; try discriminate. apply rlt_false in H1. apply rle_false. lra.
Qed.
Lemma dl_gain_rule : forall n s dx c, dl_reach n (gn_system n) s dx -> bfirst (d_base s) = false -> fst (csolve c) = true -> gn_system n c ->
  forall ok dx' s', dl_solve n s dx c = DLok ok dx' s' ->
  let rho := xdiv ((if cpf c then bpJ (d_base s) else bJ (d_base s)) - cJ c) (d_L0 s) in
  (xlt rho (1 / 4) = true -> d_delta s' <= d_delta s / 2) /\
  (xgt rho (3 / 4) = true -> d_delta s <= d_delta s' <= 3 * d_delta s) /\
  (xlt rho (1 / 4) = false -> xgt rho (3 / 4) = false -> d_delta s' = d_delta s).
Proof.
  intros n s dx c H B Hok Hg ok dx' s' S.
  destruct (dl_reach_inv n _ _ _ H) as [I1 I2]. specialize (I2 B).
  assert (d_delta s' > 0 /\ (bfirst (d_base s) = true -> cpf c = false)) as [D' Hb].
  { split; [|congruence]. assert (dl_reach n (gn_system n) s' dx') as H' by (eapply dl_reach_step; eauto; congruence).
    destruct (dl_step_inv n s dx c ok dx' s') as (Ok' & B' & _); auto. congruence.
    pose proof (dl_reach_pos n s' dx' H' B') as [Q1 Q2 Q3]. auto. }
  pose proof (dl_reach_pos n s dx H B) as [Q1 Q2 Q3].
  destruct (dl_main n s dx H B) as (_ & Nd & _).
  destruct (dl_step_inv n s dx c ok dx' s') as (Ok' & B' & I & Rd & _); auto.
  assert (dx = d_dx s) as Ex by (destruct I2; auto).
  assert (dl_inv n s (d_dx s)) as I2' by (rewrite <- Ex; auto). rewrite Ex in Nd.
  change (get_dJ (base_enter (d_base s) c)) with ((if cpf c then bpJ (d_base s) else bJ (d_base s)) - cJ c) in Rd.
  cbv zeta. set (rho := xdiv _ _) in *. pose proof (dl_radius_rule n s rho I2' Nd) as L.
  assert (0 < dl_radius n s rho) as P.
  { destruct Q2 as (g & G1 & G2). destruct I2' as [_ _ (g' & G3 & G4) _ _]. rewrite G1 in G3. injection G3 as <-. unfold dl_radius.
    destruct (xgt rho (3 / 4)). { pose proof (norm_pos n (d_dx s)). unfold rle. destruct (Rle_dec (d_delta s) (3 * norm n (d_dx s))); lra. }
    destruct (_ && _); [lra|]. destruct (xle rho 0); [|lra]. destruct (d_type s); lra. }
  destruct (Rd B) as [-> _]; [lra|lra|]. exact L.
Qed.
(** the line search policy: repeated rejections shorten the last solution, without another solve *)
Lemma ls_backtracks : forall step reset s dx c cs, (bfirst (ls_base s) = true \/ cpf c = false) -> Forall (fun c => cpf c = true) cs ->
  let r := fold_left (fun r c' => ls_solve step reset (snd r) (snd (fst r)) c') cs (ls_solve step reset s dx c) in
  (forall i, snd (fst r) i = step ^ length cs * snd (csolve c) i) /\ ls_sys (snd r) = cfresh c /\ (fst (csolve c) = true -> fst (fst r) = true).
Proof.
  intros step reset s dx c cs H F.
  assert (exists s1, ls_solve step reset s dx c = (csolve c, s1) /\ ls_sys s1 = cfresh c /\ bfirst (ls_base s1) = false) as (s1 & E & E1 & E2).
  { unfold ls_solve. assert (bfirst (base_enter (ls_base s) c) || negb (cpf c) = true) as ->.
    { cbn. destruct H as [->| ->]; auto. apply orb_true_r. }
    rewrite <- surjective_pairing. eexists. split; [reflexivity|]. split; reflexivity. }
  rewrite E. clear E H. cbv zeta.
  assert (forall cs r k, Forall (fun c => cpf c = true) cs -> ls_sys (snd r) = cfresh c -> bfirst (ls_base (snd r)) = false ->
    (forall i, snd (fst r) i = k * snd (csolve c) i) -> (fst (csolve c) = true -> fst (fst r) = true) ->
    let r' := fold_left (fun r c' => ls_solve step reset (snd r) (snd (fst r)) c') cs r in
    (forall i, snd (fst r') i = k * step ^ length cs * snd (csolve c) i) /\ ls_sys (snd r') = cfresh c /\ (fst (csolve c) = true -> fst (fst r') = true)) as L.
  { clear. induction cs as [|d cs IH]; intros r k F A1 A2 A3 A4.
    - cbn. split; [|auto]. intros i. rewrite A3. ring.
    - inversion F; subst. cbn [fold_left length]. destruct (IH (ls_solve step reset (snd r) (snd (fst r)) d) (k * step)) as (B1 & B2 & B3); auto.
      + unfold ls_solve. cbn. rewrite A2, H1. cbn. auto.
      + unfold ls_solve. cbn. rewrite A2, H1. cbn. auto.
      + intros i. unfold ls_solve. cbn. rewrite A2, H1. cbn. unfold vscale. cbn. rewrite A3. ring.
      + unfold ls_solve. cbn. rewrite A2, H1. cbn. auto.
      + split; [|auto]. intros i. rewrite B1. cbn [pow]. ring. }
  destruct (L cs (csolve c, s1) 1) as (B1 & B2 & B3); auto.
  - intros i. symmetry. apply Rmult_1_l.
  - split; [|auto]. intros i. rewrite B1. ring.
Qed.

(** a zero step with unchanged cost (a problem at its optimum) makes the damping NaN *)
Lemma lm_nan_ex : exists s dx c ok dx' s', lm_reach 1 lm_defaults s dx /\ cpf c = false /\
  lm_solve 1 lm_defaults s dx c = (ok, dx', s') /\ lambda s' = None.
Proof.
  set (c1 := mkCall 5 false (sys1 0 0) (true, cv 0)).
  set (s := mkLm (mkBase 5 5 false) (Some (1 / 1000)) 2 (sys1 0 0)).
  assert (exists ok dx' s', lm_solve 1 lm_defaults s (cv 0) c1 = (ok, dx', s')) as (ok & dx' & s' & S).
  { destruct (lm_solve 1 lm_defaults s (cv 0) c1) as [[a b] d]. eauto. }
  exists s, (cv 0), c1, ok, dx', s'. split; [|split; [reflexivity|split; [exact S|]]].
  - eapply lm_reach_step with (s := lm_start lm_defaults 5 (sys1 0 0)) (dx := cv 0) (c := c1) (ok := true); [apply lm_reach_start|discriminate|reflexivity].
  - eapply lm_nan with (l := 1 / 1000); try exact S; try reflexivity.
    + assert (10 ^ 16 = 1000 * 10 ^ 13) as -> by ring. assert (1 < 10 ^ 13) by (apply Rlt_pow_R1; [lra|lia]).
      apply Rmult_lt_reg_r with (1000 * 10 ^ 13); [lra|]. unfold Rdiv. rewrite !Rmult_1_l, Rinv_l by lra.
      rewrite <- Rmult_assoc, Rinv_l by lra. lra.
    + unfold getLmRho, s. cbn [lambda lm_base lm_sys]. rewrite dot1. unfold vadd, vscale, cv, get_dJ, xdiv. cbn [rhs sys1 base_enter bpJ bJ cJ cpf c1].
      cbn. unfold cv. replace (0 * (1 / 1000 * 0 + 0)) with 0 by ring. replace (5 - 5) with 0 by ring. repeat decide_if. reflexivity.
Qed.

(** a tiny damping is replaced by 1e-15 by a successful step, which can be a larger factor than beta *)
Definition lm_tiny : lmparams := mkLmParams (1 / 10 ^ 16) 3 2 3 2.
Lemma lm_jump_ex : lm_params_ok lm_tiny /\ exists s dx c ok dx' s' l l', lm_reach 1 lm_tiny s dx /\ lm_succeeded 1 s dx c /\
  lm_solve 1 lm_tiny s dx c = (ok, dx', s') /\ lambda s = Some l /\ lambda s' = Some l' /\ beta lm_tiny * l < l'.
Proof.
  pose proof ten16 as T. split. { unfold lm_params_ok, lm_tiny; cbn -[pow]. repeat split; try lra; lia. }
  set (c1 := mkCall 5 false (sys1 1 1) (true, cv 1)). set (c2 := mkCall 4 false (sys1 1 1) (true, cv 1)).
  set (s := mkLm (mkBase 5 5 false) (Some (1 / 10 ^ 16)) 2 (sys1 1 1)).
  assert (lm_reach 1 lm_tiny s (cv 1)) as Re.
  { eapply lm_reach_step with (s := lm_start lm_tiny 5 (sys1 0 0)) (dx := cv 0) (c := c1) (ok := true); [apply lm_reach_start|discriminate|reflexivity]. }
  assert (lm_succeeded 1 s (cv 1) c2) as Su.
  { split; [reflexivity|]. split; [reflexivity|]. unfold getLmRho, s. cbn [lambda lm_base lm_sys]. rewrite dot1. unfold vadd, vscale, get_dJ, xdiv.
    cbn [rhs sys1 base_enter bpJ bJ cJ cpf c2]. unfold cv. set (l := 1 / 10 ^ 16) in *. 
    change (kmul 1 (kadd (kmul l 1) 1)) with (1 * (l * 1 + 1)). 
    match goal with |- context [Req_EM_T ?x 0] => change x with (1 * (l * 1 + 1)) end. clearbody l.
    destruct (Req_EM_T (1 * (l * 1 + 1)) 0); [lra|]. cbn [xgt]. apply rlt_true. apply Rdiv_lt_0_compat; [|change (0 < 1 * (l * 1 + 1))]; lra. }
  assert (exists ok dx' s', lm_solve 1 lm_tiny s (cv 1) c2 = (ok, dx', s')) as (ok & dx' & s' & S).
  { destruct (lm_solve 1 lm_tiny s (cv 1) c2) as [[a b] d]. eauto. }
  exists s, (cv 1), c2, ok, dx', s', (1 / 10 ^ 16), (1 / 10 ^ 15). split; auto. split; auto. split; auto. split; [reflexivity|].
  destruct (lm_success_step 1 lm_tiny s (cv 1) c2 ok dx' s') as (l & L1 & _ & _ & L2); auto.
  { unfold lm_params_ok, lm_tiny; cbn -[pow]. repeat split; try lra; lia. }
  split. { apply L2. injection L1 as <-. lra. }
  cbn [lm_tiny beta]. replace (10 ^ 16) with (10 * 10 ^ 15) by ring. assert (0 < 10 ^ 15) by (apply pow_lt; lra).
  unfold Rdiv. rewrite Rinv_mult by lra. assert (0 < / 10 ^ 15) by (apply Rinv_0_lt_compat; lra). lra.
Qed.

(** two consecutive failures exist *)
Lemma lm_failures_ex : exists s dx c, lm_reach 1 lm_defaults s dx /\ lm_failed 1 s dx c /\
  exists ok dx1 s1 c2, lm_solve 1 lm_defaults s dx c = (ok, dx1, s1) /\ lm_failed 1 s1 dx1 c2.
Proof.
  set (c1 := mkCall 5 false (sys1 1 1) (true, cv 1)). set (c2 := mkCall 6 true (sys1 1 1) (true, cv 1)).
  exists (mkLm (mkBase 5 5 false) (Some (1 / 1000)) 2 (sys1 1 1)), (cv 1), c2. split; [|split].
  - eapply lm_reach_step with (s := lm_start lm_defaults 5 (sys1 0 0)) (dx := cv 0) (c := c1) (ok := true); [apply lm_reach_start|discriminate|reflexivity].
  - split; [reflexivity|left; reflexivity].
  - eexists. eexists. eexists. exists c2. split; [reflexivity|]. split; [reflexivity|left; reflexivity].
Qed.
Lemma lm_success_ex : exists s dx c, lm_reach 1 lm_tiny s dx /\ lm_succeeded 1 s dx c.
Proof. destruct lm_jump_ex as (_ & s & dx & c & _ & _ & _ & _ & _ & R & S & _). eauto. Qed.

(** a rejected step with a gain ratio of 1/5, as the policy computes it *)
Lemma dl_gain_ex : exists s dx c ok dx' s', dl_reach 1 (gn_system 1) s dx /\ bfirst (d_base s) = false /\ fst (csolve c) = true /\ gn_system 1 c /\
  dl_solve 1 s dx c = DLok ok dx' s' /\ xlt (xdiv ((if cpf c then bpJ (d_base s) else bJ (d_base s)) - cJ c) (d_L0 s)) (1 / 4) = true /\
  xle (xdiv ((if cpf c then bpJ (d_base s) else bJ (d_base s)) - cJ c) (d_L0 s)) 0 = false.
Proof.
  destruct dl_two_steps as (s1 & s2 & dx2 & E1 & E2 & X2 & B1 & B2 & B3 & B4 & B5 & B6 & B7 & B8 & B9).
  set (c3 := mkCall 970 true (sys1 20 (20 * 20)) (true, cv 20)).
  assert (xdiv (get_dJ (base_enter (d_base s2) c3)) (d_L0 s2) = Fin (1 / 5)) as X.
  { rewrite B3, B2. unfold base_enter, get_dJ; cbn [cpf cJ bpJ bJ bfirst c3]. unfold xdiv. decide_if. f_equal. lra. }
  assert (exists dx3 s3, dl_solve 1 s2 dx2 c3 = DLok true dx3 s3) as (dx3 & s3 & E3).
  { unfold dl_solve. cbv zeta. rewrite X.
    assert (dl_radius 1 s2 (Fin (1 / 5)) = 5) as ->.
    { unfold dl_radius. rewrite B1. unfold xgt, xlt, rlt. repeat decide_if. cbn [andb]. lra. }
    rewrite B3. cbn [base_enter bfirst c3 cpf negb andb]. rewrite B4, B5, B8.
    unfold rle. repeat decide_if. cbn [negb andb]. eexists. eexists. reflexivity. }
  exists s2, dx2, c3, true, dx3, s3. split; auto. split; [rewrite B3; auto|]. split; auto. split; [apply gn_system_1; lra|]. split; auto.
  change ((if cpf c3 then bpJ (d_base s2) else bJ (d_base s2)) - cJ c3) with (get_dJ (base_enter (d_base s2) c3)). rewrite X. cbn [xlt xle].
  split; [apply rlt_true|apply rle_false]; lra.
Qed.
