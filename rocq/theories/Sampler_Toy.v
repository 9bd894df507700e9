(** * Concrete samplers used as cases and counterexamples for C35-C37 *)
From Coq Require Import ZArith Reals List Bool Lra.
From Flocq Require Import BinarySingleNaN.
From Verif Require Import Lib_Ring Lib_Real Lib_Float Lib_Num Sampler_Model Sampler_Spec Sampler_Proofs.
Import ListNotations.
Open Scope R_scope.

(** Metropolis-Hastings on the line with U(x) = x *)
Definition lineU (x : R) : option R := Some x.
Definition lstep := mh_step (A := R_num) lineU Rplus exp.
Definition lstart : mh R R := mkMh 0 0 0.

Lemma line_back : forall w v, w + v + - v = w. Proof. intros; lra. Qed.
Lemma exp_le_1 : forall x, x < 0 -> exp x < 1. Proof. intros x H. rewrite <- exp_0. apply exp_increasing. auto. Qed.
(* uphill by one: probability exp(-1), a uniform number above it *)
Lemma line_rejects : lstep true false lstart (1, 1) = (Some (exp (min0 (- (0 + 1) + 0))), false, mkMh 0 0 0).
Proof.
  unfold lstep, mh_step, lstart, lineU. cbn [orb mh_apply mh_revert m_world m_saved m_cached fst snd].
  change (nadd (nopp (0 + 1)) 0) with (- (0 + 1) + 0).
  change (nlt 1 (exp (min0 (- (0 + 1) + 0)))) with (Rltb 1 (exp (min0 (- (0 + 1) + 0)))).
  rewrite (proj2 (Rltb_false _ _)); [reflexivity|]. apply exp_min0.
Qed.
Lemma line_accepts : exists p, lstep true false (mkMh 1 1 0) (-1, 0) = (Some p, true, mkMh (1 + -1) 1 (1 + -1)).
Proof.
  unfold lstep, mh_step, lineU. cbn [orb mh_apply mh_revert m_world m_saved m_cached fst snd].
  change (nadd (nopp (1 + -1)) 1) with (- (1 + -1) + 1). eexists.
  change (nlt 0 (exp (min0 (- (1 + -1) + 1)))) with (Rltb 0 (exp (min0 (- (1 + -1) + 1)))).
  rewrite (proj2 (Rltb_true _ _)); [reflexivity|]. apply exp_min0.
Qed.

(* a history: initialise, take an accepted step, then a rejected one *)
Lemma line_history : exists b d, do_calls lstep (mh_reset 7) [Init; Run [(-1, 0); (1, 1)]; Force; Run [(-1, 0)]] (false, base_new, lstart) = (false, b, d) /\
  b_iter b = 3%nat /\ b_total b = 2%nat /\ b_run b = 1%nat /\ m_world d = -1 + -1 /\ necessary b = false.
Proof.
  unfold do_calls, lstep, mh_step, lstart, lineU.
  cbn [fold_left do_call sampler_run run_loop base_reset base_new b_force b_last b_iter b_total b_run b_mean b_alpha orb negb mh_reset m_world m_saved m_cached mh_apply mh_revert fst snd].
  set (p1 := exp (min0 (nadd (nopp (0 + -1)) 0))).
  replace (nlt 0 p1) with true by (symmetry; apply (proj2 (Rltb_true 0 p1)); apply exp_min0).
  cbn [run_loop fold_left do_call sampler_run b_force b_last b_iter b_total b_run b_mean b_alpha orb negb m_world m_saved m_cached mh_apply mh_revert fst snd].
  set (p2 := exp (min0 (nadd (nopp (0 + -1 + 1)) (0 + -1)))).
  replace (nlt 1 p2) with false by (symmetry; apply (proj2 (Rltb_false 1 p2)); apply exp_min0).
  cbn [run_loop fold_left do_call sampler_run b_force b_last b_iter b_total b_run b_mean b_alpha orb negb m_world m_saved m_cached mh_apply mh_revert fst snd].
  set (p3 := exp (min0 (nadd (nopp (0 + -1 + -1)) (0 + -1)))).
  replace (nlt 0 p3) with true by (symmetry; apply (proj2 (Rltb_true 0 p3)); apply exp_min0).
  cbn [run_loop fold_left do_call sampler_run b_force b_last b_iter b_total b_run b_mean b_alpha orb negb m_world m_saved m_cached mh_apply mh_revert fst snd].
  eexists _, _. split; [reflexivity|]. cbn [b_iter b_total b_run m_world necessary b_force b_last]. repeat split. lra.
Qed.

(** a density that cannot be evaluated at the proposal *)
Definition partialU (x : Z) : option R := if (x =? 1)%Z then None else Some 0.
Definition pstep := mh_step (A := R_num) partialU Z.add exp.
Lemma exception_refutes : exists cs b d,
  do_calls pstep (mh_reset 7) cs (false, base_new, mkMh 0%Z 0%Z 0) = (true, b, d) /\
  necessary b = false /\ m_world d = 1%Z /\ m_cached d = 0 /\ partialU (m_world d) = None.
Proof.
  exists [Run [(0%Z, 0); (1%Z, 0)]].
  unfold do_calls, pstep, mh_step, partialU.
  cbn [fold_left do_call sampler_run run_loop base_new b_force b_last b_iter b_total b_run b_mean b_alpha orb negb m_world m_saved m_cached mh_apply mh_revert fst snd].
  change (0 =? 1)%Z with false. change (0 + 0)%Z with 0%Z. change (0 =? 1)%Z with false. cbv iota.
  set (p1 := exp (min0 (nadd (nopp 0) 0))).
  replace (nlt 0 p1) with true by (symmetry; apply (proj2 (Rltb_true 0 p1)); apply exp_min0).
  cbn [run_loop b_force b_last b_iter b_total b_run b_mean b_alpha orb negb m_world m_saved m_cached mh_apply mh_revert fst snd].
  change (0 + 1)%Z with 1%Z. change (1 =? 1)%Z with true. cbv iota.
  eexists _, _. split; [reflexivity|]. cbn [necessary b_force b_last m_world m_cached]. repeat split.
Qed.

(** HMC on the line with U(w) = w, so with constant gradient 1 *)
Definition hU (w : R) : option R := Some w.
Definition hG (w : R) : option (vec R) := Some (fun _ => 1).
Definition hupd (w : R) (v : vec R) : R := w + v 0%nat.
Definition hopt (L : nat) : hopts := mkHopts (1 / 100) (1 / 2) L.
Lemma hupd_back : forall w v, hupd (hupd w v) (vopp v) = w. Proof. intros. unfold hupd, vopp. lra. Qed.
Notation fin1 := (fun _ : vec R => true).
Notation finE1 := (fun _ : R => true).
Definition zero_p : vec R := fun _ => 0.

Lemma h_traj : forall eps w p, exists w2 p2, trajectory hG hupd fin1 (eps / 2) eps 2 w (fun _ => 1) p = Some (w2, p2, fun _ => 1) /\
  w2 = w + eps * (p 0%nat - eps / 2) /\ p2 0%nat = p 0%nat - eps.
Proof.
  intros. unfold trajectory, middle. cbn [Nat.sub full_steps hG]. eexists _, _. split; [reflexivity|].
  unfold hupd, vscale, vsub. cbn [ksub kmul RRing]. split; field.
Qed.
Lemma h_traj4 : exists w2 p2, trajectory hG hupd fin1 (1 / 2) 1 4 0 (fun _ => 1) zero_p = Some (w2, p2, fun _ => 1) /\
  w2 = - 9 / 2 /\ p2 0%nat = - 3.
Proof.
  unfold trajectory, middle. cbn [Nat.sub full_steps hG]. eexists _, _. split; [reflexivity|].
  unfold hupd, vscale, vsub, zero_p. cbn [ksub kmul RRing]. split; lra.
Qed.

(* the step from w = 0 with momentum 0 keeps the total energy, it is accepted with probability one *)
Lemma vdot1 : forall a b : vec R, vdot 1 a b = a 0%nat * b 0%nat.
Proof. intros. unfold vdot. cbn [ksum kadd k0 kmul RRing]. ring. Qed.
Lemma energy_kept : forall eps w p w2 p2, trajectory hG hupd fin1 (eps / 2) eps 2 w (fun _ => 1) p = Some (w2, p2, fun _ => 1) ->
  w + kinetic 1 p = w2 + kinetic 1 p2.
Proof.
  intros eps w p w2 p2 H. destruct (h_traj eps w p) as (w2' & p2' & T & E1 & E2). rewrite T in H. injection H as <- <-.
  unfold kinetic. rewrite !vdot1, E1, E2. field.
Qed.

Lemma sigma_refutes : forall s, 0 < s -> s <> 1 -> exists (w w2 : R) (p p2 : vec R) (d d1 e e1 : hmc R) (a a' : R),
  h_world d = w /\ h_world e = w2 /\ h_eps d = 1 /\ h_eps e = 1 /\
  trajectory hG hupd fin1 (1 / 2) 1 2 w (fun _ => 1) p = Some (w2, p2, fun _ => 1) /\
  hmc_step 1 hU hG hupd fin1 finE1 (hopt 2) true false d [(p, 1 / 2)] = (Some a, true, d1) /\ h_world d1 = w2 /\
  hmc_step 1 hU hG hupd fin1 finE1 (hopt 2) true false e [(vopp p2, 1 / 2)] = (Some a', true, e1) /\ h_world e1 = w /\
  joint_s 1 s w p * a <> joint_s 1 s w2 (vopp p2) * a'.
Proof.
  intros s Sp Sn. destruct (h_traj 1 0 zero_p) as (w2 & p2 & T & E1 & E2).
  assert (G : hG 0 = Some (fun _ => 1)) by reflexivity.
  pose proof (reversible hG hupd hupd_back _ _ _ _ _ _ _ _ _ G T) as T2.
  exists 0, w2, zero_p, p2. unfold hmc_step.
  exists (mkHmc 0 0 zero_p 1). eexists. exists (mkHmc w2 0 zero_p 1). eexists. exists 1, 1. repeat apply conj; try reflexivity; auto.
  - cbn [attempts orb negb hU hG h_world h_eps h_steps hopt]. unfold simulate. rewrite T. cbn [hU].
    pose proof (energy_kept _ _ _ _ _ T) as K.
    replace (0 + kinetic 1 zero_p - (w2 + kinetic 1 p2)) with 0 by lra. rewrite exp_0, Rmin_left by lra.
    rewrite (proj2 (Rltb_true _ _)) by lra. reflexivity.
  - reflexivity.
  - cbn [attempts orb negb hU hG h_world h_eps h_steps hopt]. unfold simulate. rewrite T2. cbn [hU].
    pose proof (energy_kept _ _ _ _ _ T) as K. rewrite !kinetic_opp.
    replace (w2 + kinetic 1 p2 - (0 + kinetic 1 zero_p)) with 0 by lra. rewrite exp_0, Rmin_left by lra.
    rewrite (proj2 (Rltb_true _ _)) by lra. reflexivity.
  - reflexivity.
  - unfold joint_s. rewrite !vdot1. unfold vopp. rewrite E2, E1. unfold zero_p. rewrite !Rmult_1_r. intros X. apply exp_inv in X.
    assert (s * s = 1).
    { assert (Q : / (2 * (s * s)) = / 2) by lra. assert (Z : 2 * (s * s) = 2); [|lra]. rewrite <- (Rinv_inv (2 * (s * s))), Q. apply Rinv_inv. }
    assert ((s - 1) * (s + 1) = 0) by (ring_simplify; lra). apply Rmult_integral in H0. destruct H0; lra.
Qed.

(** a rejected HMC step: a momentum and a potential that is steep (U = w except at the end point, where it is large) *)
Definition bumpU (w : R) : option R := Some (if Req_EM_T w 0 then 0 else 100).
Lemma bump_rejects : exists a d, hmc_step 1 bumpU hG hupd fin1 finE1 (hopt 2) true false (mkHmc 0 7 zero_p 1) [(zero_p, 1)] = (Some a, false, d) /\
  h_world d = 0 /\ h_u d = 0.
Proof.
  destruct (h_traj 1 0 zero_p) as (w2 & p2 & T & E1 & E2).
  unfold hmc_step. cbn [attempts orb negb bumpU hG h_world h_eps h_steps hopt]. unfold simulate. rewrite T. unfold bumpU.
  destruct (Req_EM_T w2 0) as [Z|Z]; [unfold zero_p in E1; lra|].
  destruct (Req_EM_T 0 0) as [_|X]; [|lra].
  rewrite (proj2 (Rltb_false _ _)) by apply Rmin_l. eexists _, _. split; [reflexivity|]. split; reflexivity.
Qed.

(** double precision: a proposal whose density is not a number *)
Definition nanU (x : Z) : option b64 := Some (if (x =? 0)%Z then f0 else NaN).
Lemma nan_refutes : forall (expd : b64 -> b64) (u : b64), expd f0 = fz 1 -> flt u (fz 1) = true ->
  mh_step (A := b64_num) nanU Z.add expd true false (mkMh 0%Z 0%Z f0) (1%Z, u) = (Some (fz 1), true, mkMh 1%Z 0%Z NaN).
Proof.
  intros expd u E U. unfold mh_step, nanU. cbn [orb mh_apply mh_revert m_world m_saved m_cached fst snd].
  change (0 =? 0)%Z with true. change (0 + 1 =? 0)%Z with false. cbv iota.
  replace (min0 (nadd (nopp NaN) f0)) with f0 by (vm_compute; reflexivity). rewrite E.
  change (nlt u (fz 1)) with (flt u (fz 1)). rewrite U. reflexivity.
Qed.

(* an accepted HMC step *)
Lemma h_history : exists b d, do_calls (hmc_step 1 hU hG hupd fin1 finE1 (hopt 2)) (fun d => d) [Run [[(zero_p, 1 / 2)]]]
    (false, base_new, mkHmc 0 7 zero_p 1) = (false, b, d) /\ necessary b = false /\ h_world d = - (1 / 2).
Proof.
  destruct (h_traj 1 0 zero_p) as (w2 & p2 & T & E1 & E2). pose proof (energy_kept _ _ _ _ _ T) as K.
  unfold do_calls, hmc_step. cbn [fold_left do_call sampler_run run_loop base_new b_force b_last b_iter b_total b_run b_mean b_alpha attempts orb negb hU hG h_world h_eps h_steps hopt].
  unfold simulate. rewrite T. cbn [hU].
  replace (0 + kinetic 1 zero_p - (w2 + kinetic 1 p2)) with 0 by lra. rewrite exp_0, Rmin_left by lra.
  rewrite (proj2 (Rltb_true _ _)) by lra. eexists _, _. split; [reflexivity|]. cbn [necessary b_force b_last h_world]. split; [reflexivity|].
  rewrite E1. unfold zero_p. lra.
Qed.

(* a sampler that accepts as told *)
Definition tstep (f l : bool) (d : unit) (x : bool) : option b64 * bool * unit := (Some (fz 1), x, d).
Lemma tstep_counts : exists b d, do_calls tstep (fun d => d) [Init; Run [true; false; true]] (false, base_new (N := b64), tt) = (false, b, d) /\
  b_iter b = 3%nat /\ b_total b = 2%nat.
Proof. eexists _, _. split; [reflexivity|]. split; reflexivity. Qed.

Lemma line_mean : (forall f l d x p a d1, lstep f l d x = (Some p, a, d1) -> 0 <= p <= 1) /\
  0 < b_alpha (base_new (N := R)) <= 1 /\ 0 <= b_mean (base_new (N := R)) <= 1.
Proof.
  split.
  - intros f l d [dx u] p a d1 H. unfold lstep, mh_step in H. destruct (f || negb l); cbn [lineU] in H.
    + destruct (nlt _ _) in H; injection H as <- _ _; match goal with |- context [exp (min0 ?x)] => pose proof (exp_min0 x) end; lra.
    + destruct (nlt _ _) in H; injection H as <- _ _; match goal with |- context [exp (min0 ?x)] => pose proof (exp_min0 x) end; lra.
  - cbn [base_new b_alpha b_mean]. change (0 < 1 / 10 <= 1 /\ 0 <= 0 / 1 <= 1). lra.
Qed.
