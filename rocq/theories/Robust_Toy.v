(** * Two error terms with the Huber estimator, used as example *)
From Coq Require Import Arith Lia List ZArith NArith Bool Reals Lra.
From Verif Require Import Lib_Ring Lib_Real Lib_Res CCM_Model SBM_Model SBM_Spec SBM_Proofs SBM_Proofs2 LinSolve_Model LinSolve_Spec LinSolve_Proofs LinSolve_Proofs2 MEstimator_Model MEstimator_Spec Gain_Spec Gain_Proofs Gain_Proofs2 Gain_Proofs3 Gain_Toy Policy_Model Policy_Spec Policy_Proofs LMLive_Spec LMLive_Proofs LMLive_Proofs2 LMLive_Toy Robust_Spec Robust_Proofs.
Import ListNotations.
Local Open Scope R_scope.

(* two measurements of one number, with the Huber estimator for k = 1: the errors are 4 / 5 + y, with the weight 1, and -4 + y, with the weight 1 / 4 *)
Definition t3a : lterm R := mkLt 1 [(0%nat, mr [[1]])] (vr [4 / 5]) (mr [[1]]) 1.
Definition t3b : lterm R := mkLt 1 [(0%nat, mr [[1]])] (vr [-4]) (mr [[1]]) (1 / 2).
Definition tms3 : list (lterm R * mestimator) := [(t3a, Huber 1); (t3b, Huber 1)].
Lemma t3_ok : Forall (lterm_ok lay1) (map fst tms3). Proof. repeat constructor; cbn; auto. Qed.
Lemma t3_tuned : Forall (fun tm => tuned (snd tm)) tms3. Proof. repeat constructor; cbn; lra. Qed.
Lemma square3a : forall z, squared t3a (err_after lay1 (fun _ => 1) t3a z) = (4 / 5 + z 0%nat) * (4 / 5 + z 0%nat).
Proof. intros. unfold squared, err_after, lin_change, mmul, mtr. cbn. ring. Qed.
Lemma square3b : forall z, squared t3b (err_after lay1 (fun _ => 1) t3b z) = (4 - z 0%nat) * (4 - z 0%nat).
Proof. intros. unfold squared, err_after, lin_change, mmul, mtr. cbn. ring. Qed.
Lemma huber_far : forall a, 1 < a -> getWeight (Huber 1) (a * a) * (a * a) = a /\ loss (Huber 1) (a * a) = 2 * a - 1.
Proof.
  intros a H. unfold getWeight, loss. rewrite (sqrt_square a) by lra. destruct (Rlt_dec (a * a) (1 * 1)) as [Q|_]; [nra|]. destruct (Rle_dec (a * a) (1 * 1)) as [Q|_]; [nra|]. split; [field; lra|ring].
Qed.
Lemma huber_near : forall a, 0 <= a < 1 -> getWeight (Huber 1) (a * a) * (a * a) = a * a /\ loss (Huber 1) (a * a) = a * a.
Proof. intros a H. unfold getWeight, loss. destruct (Rlt_dec (a * a) (1 * 1)) as [_|Q]; [|nra]. destruct (Rle_dec (a * a) (1 * 1)) as [_|Q]; [|nra]. split; ring. Qed.
Lemma t3_weighted : Forall weighted_by tms3.
Proof.
  repeat constructor; unfold weighted_by; cbn [fst snd].
  - assert (E : squared t3a (lt_err t3a) = 4 / 5 * (4 / 5)) by (unfold squared, mmul, mtr; cbn; field). rewrite E. cbn [lt_sw t3a getWeight]. destruct (Rlt_dec (4 / 5 * (4 / 5)) (1 * 1)) as [_|Q]; lra.
  - assert (E : squared t3b (lt_err t3b) = 4 * 4) by (unfold squared, mmul, mtr; cbn; field). rewrite E. cbn [lt_sw t3b getWeight]. destruct (Rlt_dec (4 * 4) (1 * 1)) as [Q|_]; [lra|]. rewrite sqrt_square by lra. field.
Qed.
Lemma t3_moves : ~ stationary lay1 (fun _ => 1) (map fst tms3).
Proof. intros H. specialize (H (fun _ => 1)). unfold wprod, lin_change, mmul, mtr in H. cbn in H. lra. Qed.
Lemma buildable3 : buildable lay1 (map fst tms3) (construct 0 0).
Proof. split; [exact lay1_ok|]. split; [discriminate|]. split; [exact t3_ok|]. split; [cbn; lia|]. right. repeat constructor; discriminate. Qed.
Lemma reported3 : forall y, 0 <= y 0%nat < 1 / 5 -> reported_cost lay1 (fun _ => 1) tms3 y = (4 / 5 + y 0%nat) * (4 / 5 + y 0%nat) + (4 - y 0%nat).
Proof.
  intros y H. unfold reported_cost, tms3. cbn [lsum fst snd]. rewrite square3a, square3b. destruct (huber_near (4 / 5 + y 0%nat) ltac:(lra)) as (-> & _). destruct (huber_far (4 - y 0%nat) ltac:(lra)) as (-> & _). kr. ring.
Qed.
Lemma robust3 : forall y, 0 <= y 0%nat < 1 / 5 -> robust_cost lay1 (fun _ => 1) tms3 y = (4 / 5 + y 0%nat) * (4 / 5 + y 0%nat) + (2 * (4 - y 0%nat) - 1).
Proof.
  intros y H. unfold robust_cost, tms3. cbn [lsum fst snd]. rewrite square3a, square3b. destruct (huber_near (4 / 5 + y 0%nat) ltac:(lra)) as (_ & ->). destruct (huber_far (4 - y 0%nat) ltac:(lra)) as (_ & ->). kr. ring.
Qed.
(* the reported cost rises with all steps that can be tried, the robust cost falls *)
Lemma rises : forall y, 0 < y 0%nat < 1 / 5 -> reported_cost lay1 (fun _ => 1) tms3 no_step < reported_cost lay1 (fun _ => 1) tms3 y.
Proof. intros y H. rewrite !reported3; unfold no_step; nra. Qed.
Lemma would_fall : forall y, 0 < y 0%nat < 1 / 5 -> robust_cost lay1 (fun _ => 1) tms3 y < robust_cost lay1 (fun _ => 1) tms3 no_step.
Proof. intros y H. rewrite !robust3; unfold no_step; nra. Qed.
Definition F3 : sc R := match sc_build lay1 (map fst tms3) (eval_errors (map fst tms3) 0 (fun _ => 0)) [0] true (construct 0 0) with Ok f => f | _ => mkSc (construct 0 0) (fun _ => 0) (fun _ => 0) [] true end.
Lemma F3_built : sc_build lay1 (map fst tms3) (eval_errors (map fst tms3) 0 (fun _ => 0)) [0] true (construct 0 0) = Ok F3.
Proof. reflexivity. Qed.
Lemma attempt3 : forall lam, 0 < lam -> exists S x, sparse_attempt csolve1 1 F3 lam S x /\ sc_J S = sc_J F3 /\ sc_e S = sc_e F3 /\ sc_rhs S = sc_rhs F3 /\ x 0%nat = 1 / 5 / (5 / 4 + lam * lam).
Proof.
  intros lam L. assert (P : 0 < lam * lam) by nra. eexists _, _. split; [|split; [|split; [|split]]].
  - unfold sparse_attempt. cbv -[csolve1 Rplus Rmult Ropp IZR Rminus Rdiv]. unfold csolve1, csolveR.
    match goal with |- context [CCM_Model.toDense ?z ?m] => let D := eval cbv -[Rplus Rmult Ropp IZR Rminus Rdiv] in (CCM_Model.toDense z m) in change (CCM_Model.toDense z m) with D end. cbv iota.
    match goal with |- context [agreeR ?n ?M ?x ?b] => rewrite (agreeR_yes n M x b) end; [reflexivity|]. intros p Hp. cbn in Hp. destruct p as [|p]; try lia. cbn. field; nra.
  - reflexivity.
  - reflexivity.
  - reflexivity.
  - cbn. field; nra.
Qed.
Lemma step3 : forall lam, 0 < 1 / 5 / (5 / 4 + lam * lam) < 1 / 5.
Proof.
  intros lam. assert (P : 0 <= lam * lam) by nra. set (d := 5 / 4 + lam * lam). assert (D : 5 / 4 <= d) by (unfold d; lra).
  assert (E : 1 / 5 / d * d = 1 / 5) by (field; lra). split; apply (Rmult_lt_reg_r d); try lra; rewrite E; lra.
Qed.
Lemma attempt_same : forall S S' lam S2 x, sc_J S = sc_J S' -> sc_e S = sc_e S' -> sc_rhs S = sc_rhs S' -> sparse_attempt csolve1 1 S' lam S2 x -> sparse_attempt csolve1 1 S lam S2 x.
Proof. intros S S' lam S2 x E1 E2 E3 H. unfold sparse_attempt in *. rewrite E1, E2, E3. exact H. Qed.
Lemma rejects_for_ever : forall k, exists s x S, row 1 lm_defaults (sc R) (sparse_attempt csolve1 1) (reported_cost lay1 (fun _ => 1) tms3) F3 k s x S /\
  reported_cost lay1 (fun _ => 1) tms3 no_step < reported_cost lay1 (fun _ => 1) tms3 x /\ robust_cost lay1 (fun _ => 1) tms3 x < robust_cost lay1 (fun _ => 1) tms3 no_step.
Proof.
  assert (G : forall k, exists s x S lam, row 1 lm_defaults (sc R) (sparse_attempt csolve1 1) (reported_cost lay1 (fun _ => 1) tms3) F3 k s x S /\ sc_J S = sc_J F3 /\ sc_e S = sc_e F3 /\ sc_rhs S = sc_rhs F3 /\
    bfirst (lm_base s) = false /\ lambda s = Some lam /\ 0 < lam /\ 1 <= mu s /\ 0 < x 0%nat < 1 / 5).
  { induction k as [|k IH].
    - destruct (attempt3 (1 / 1000) ltac:(lra)) as (S & x & A & E1 & E2 & E3 & Ex). set (sy := mkSystem (sc_rhs F3) 1). exists (mkLm (mkBase 1 1 false) (Some (1 / 1000)) 2 sy), x, S, (1 / 1000).
      split. { eapply row_first; [|reflexivity|reflexivity|exact A]. eapply (lm_reach_step 1 lm_defaults (lm_start lm_defaults 1 sy) no_step (mkCall 1 false sy (true, x))); [apply lm_reach_start| |reflexivity]. intros Q. discriminate Q. }
      repeat (split; [first [assumption|reflexivity|cbn; lra]|]). rewrite Ex. apply step3.
    - destruct IH as (s & x & S & lam & Rw & E1 & E2 & E3 & Bf & El & Ll & Lm & Hx). set (lam' := lam * (mu s * 2)). assert (L' : 0 < lam') by (unfold lam'; nra).
      destruct (attempt3 lam' ltac:(lra)) as (S' & x' & A & E1' & E2' & E3' & Ex). set (c := mkCall (bJ (lm_base s)) true (lm_sys s) (true, x')).
      destruct (lm_solve 1 lm_defaults s x c) as ((ok, dx'), s') eqn:Es. assert (Es' := Es). unfold lm_solve in Es'. cbn [base_enter bfirst c cpf] in Es'. rewrite Bf in Es'. cbn [lm_update cpf c csolve fst snd] in Es'. rewrite El in Es'. injection Es' as <- <- Es'.
      exists s', x', S', lam'. split.
      + eapply (row_next 1 lm_defaults (sc R) (sparse_attempt csolve1 1) _ F3 k s x S c x' s' lam' S'); [exact Rw|left; apply rises; lra|reflexivity|exact Es|rewrite <- Es'; reflexivity|].
        apply (attempt_same S F3); assumption.
      + repeat (split; [first [assumption|rewrite <- Es'; reflexivity|rewrite <- Es'; cbn [mu]; lra]|]). rewrite Ex. apply step3. }
  intros k. destruct (G k) as (s & x & S & lam & Rw & _ & _ & _ & _ & _ & _ & _ & Hx). exists s, x, S. split; [exact Rw|]. split; [apply rises|apply would_fall]; exact Hx.
Qed.
Lemma never_accepted : Forall (lterm_ok lay1) (map fst tms3) /\ Forall (fun tm => snd tm = Huber 1) tms3 /\ Forall weighted_by tms3 /\ ~ stationary lay1 (fun _ => 1) (map fst tms3) /\
  exists fresh, sc_build lay1 (map fst tms3) (eval_errors (map fst tms3) 0 (fun _ => 0)) [0] true (construct 0 0) = Ok fresh /\
  (forall k, exists s x S, row 1 lm_defaults (sc R) (sparse_attempt csolve1 1) (reported_cost lay1 (fun _ => 1) tms3) fresh k s x S /\
    reported_cost lay1 (fun _ => 1) tms3 no_step < reported_cost lay1 (fun _ => 1) tms3 x /\ robust_cost lay1 (fun _ => 1) tms3 x < robust_cost lay1 (fun _ => 1) tms3 no_step) /\
  ~ rejections_end 1 lm_defaults (sc R) (sparse_attempt csolve1 1) (reported_cost lay1 (fun _ => 1) tms3) fresh.
Proof.
  split; [exact t3_ok|]. split; [repeat constructor|]. split; [exact t3_weighted|]. split; [exact t3_moves|]. exists F3. split; [exact F3_built|]. split; [exact rejects_for_ever|].
  intros (K & H). destruct (rejects_for_ever K) as (s & x & S & Rw & L & _). assert (Q := H K s x S Rw (Rlt_le _ _ L)). lia.
Qed.
Lemma hqr3_ok : solves_problem hqr1 (jrows (map fst tms3) + total lay1)%nat (total lay1) (above_diag true (jrows (map fst tms3)) (J_of lay1 (map fst tms3)) (fun _ => 1)) (above_zero (jrows (map fst tms3)) (e_of (map fst tms3))).
Proof.
  intros A b HA Hb p Hp. cbn in Hp. destruct p as [|p]; try lia. pose proof (HA 0%nat 0%nat ltac:(cbn; lia) ltac:(cbn; lia)) as A0. pose proof (HA 1%nat 0%nat ltac:(cbn; lia) ltac:(cbn; lia)) as A1. pose proof (HA 2%nat 0%nat ltac:(cbn; lia) ltac:(cbn; lia)) as A2.
  pose proof (Hb 0%nat ltac:(cbn; lia)) as b0. pose proof (Hb 1%nat ltac:(cbn; lia)) as b1. pose proof (Hb 2%nat ltac:(cbn; lia)) as b2.
  unfold hqr1. cbn [jrows map list_sum fold_right tms3 fst t3a t3b lt_dim total lay1 last] in *. cbn in A0, A1, A2, b0, b1, b2 |- *. rewrite A0, A1, A2, b0, b1, b2. field.
Qed.
