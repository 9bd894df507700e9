(** * C73: Levenberg-Marquardt does not reject steps for ever; C74: its gain ratio

    [step_cost tas y] is the real cost after the step y: error functions of the step through loss functions. [linearises]: the errors, Jacobians and weights of the linear system are those of
    these functions at the present state. [row k s dx S]: since the system was built k steps have been taken back, because the cost had not fallen; s is the policy, S the linear solver, dx the
    step that is tried now. [rejections_end]: there is a K such that no row of rejections is longer than K, for all histories of the policy before it. *)
From Coq Require Import Arith Lia List ZArith NArith Bool Reals.
From Verif Require Import Lib_Ring Lib_Real Lib_Res CCM_Model SBM_Model SBM_Spec LinSolve_Model LinSolve_Spec Gain_Spec Policy_Model Policy_Spec Policy_Proofs Policy_Proofs3 LMLive_Spec LMLive_Proofs LMLive_Proofs2 LMLive_Proofs3 LMLive_Toy.
Import ListNotations.
Local Open Scope R_scope.

(** C73, with the block solver, although each solve leaves another diagonal behind (C48_block_partial).
    Missing here and below: solves that fail, rounding, and the loop of Optimizer2, which may stop because of its limits before the step is short enough. *)
Theorem C73_block_partial : forall l s ts tas, layout_ok l -> Forall (lterm_ok l) ts -> map fst tas = ts -> Forall (linearises l s) tas -> ~ stationary l s ts ->
  forall bsolve H B c0 P, represents H l l B -> symmetric_solver bsolve -> lm_params_ok P ->
  exists H' rhs, bc_build s ts H = Ok (H', rhs) /\ rejections_end (total l) P (bc R) (block_attempt bsolve) (step_cost tas) (mkBc H' rhs c0 true).
Proof. exact block_ends. Qed.
Print Assumptions C73_block_partial.
Example C73_block_case : layout_ok lay1 /\ Forall (lterm_ok lay1) [t1] /\ map fst tas1 = [t1] /\ Forall (linearises lay1 (fun _ => 1)) tas1 /\ ~ stationary lay1 (fun _ => 1) [t1] /\
  represents (fresh lay1 lay1 : sbm R) lay1 lay1 (fun _ _ => 0) /\ symmetric_solver bsolve1 /\ lm_params_ok lm_defaults /\
  bc_build (fun _ => 1) [t1] (fresh lay1 lay1) = Ok (bc_H B1, bc_rhs B1) /\ B1 = mkBc (bc_H B1) (bc_rhs B1) (fun _ => 0) true /\
  exists s x b, row 1 lm_defaults (bc R) (block_attempt bsolve1) (step_cost tas1) B1 1 s x b /\ step_cost tas1 no_step <= step_cost tas1 x.
Proof. exact (conj lay1_ok (conj t1_ok (conj (proj1 tas1_lin) (conj (proj2 tas1_lin) (conj t1_moves (conj fresh1_rep (conj bsolve1_ok (conj lm_defaults_ok (conj eq_refl (conj eq_refl row1)))))))))). Qed.

(** C73, with the sparse Cholesky solver (scalings of one, see C49_scaling_refuted) *)
Theorem C73_sparse_cholesky_partial : forall csolve l ts tas e0 c use m P, buildable l ts m -> aat_solver csolve -> lm_params_ok P ->
  map fst tas = ts -> Forall (linearises l (fun _ => 1)) tas -> ~ stationary l (fun _ => 1) ts ->
  exists x, sc_build l ts (eval_errors ts 0 e0) c use m = Ok x /\ rejections_end (total l) P (sc R) (sparse_attempt csolve (total l)) (step_cost tas) x.
Proof. exact sparse_ends. Qed.
Print Assumptions C73_sparse_cholesky_partial.
Example C73_sparse_cholesky_case : buildable lay1 [t1] (construct 0 0) /\ aat_solver csolve1 /\ exists fresh s x S, sc_build lay1 [t1] (eval_errors [t1] 0 (fun _ => 0)) [0] true (construct 0 0) = Ok fresh /\
  row 1 lm_defaults (sc R) (sparse_attempt csolve1 1) (step_cost tas1) fresh 0 s x S /\ step_cost tas1 no_step <= step_cost tas1 x.
Proof. exact (conj buildable1 (conj csolve1_ok sparse_row)). Qed.

(** C73, with the dense QR solver (scalings of one, the flag set) *)
Theorem C73_dense_partial : forall hqr garbage l ts tas e0 x P, layout_ok l -> Forall (lterm_ok l) ts -> dq_rows x = jrows ts -> dq_cols x = total l -> lm_params_ok P ->
  (forall lam, solves_problem hqr (jrows ts + total l) (total l) (above_diag true (jrows ts) (J_of l ts) (fun _ => lam)) (above_zero (jrows ts) (e_of ts))) ->
  map fst tas = ts -> Forall (linearises l (fun _ => 1)) tas -> ~ stationary l (fun _ => 1) ts ->
  rejections_end (total l) P (dq R) (dense_attempt hqr garbage) (step_cost tas) (dq_build l ts (eval_errors ts 0 e0) x).
Proof. exact dense_ends. Qed.
Print Assumptions C73_dense_partial.
Example C73_dense_case : dq_rows D1 = jrows [t1] /\ dq_cols D1 = total lay1 /\
  (forall lam, solves_problem hqr1 (jrows [t1] + total lay1) (total lay1) (above_diag true (jrows [t1]) (J_of lay1 [t1]) (fun _ => lam)) (above_zero (jrows [t1]) (e_of [t1]))) /\
  exists s x S, row 1 lm_defaults (dq R) (dense_attempt hqr1 (fun _ _ => 7)) (step_cost tas1) (dq_build lay1 [t1] (eval_errors [t1] 0 (fun _ => 0)) D1) 0 s x S /\ step_cost tas1 no_step <= step_cost tas1 x.
Proof. exact (conj eq_refl (conj eq_refl (conj hqr1_ok dense_row))). Qed.

(** C74: the gain ratio of the first step after a system was built. The full statement is
    getLmRho = (decrease of the cost) / (decrease that the linearised error terms predict). The code divides by dx^T (lambda dx + rhs); the predicted decrease is
    dx^T (lambda^2 dx + rhs), because the conditioner is squared. [gain_ok]: so it is right for lambda = 1, and its sign is right for all lambda > 0. *)
Theorem C74_block_partial : forall bsolve s l ts H A lam, layout_ok l -> represents H l l A -> Forall (lterm_ok l) ts -> symmetric_solver bsolve ->
  exists H' rh b' sol, bc_build s ts H = Ok (H', rh) /\ bc_solve bsolve (mkBc H' rh (fun _ => lam) true) = Ok (b', sol) /\
    forall x st, sol = Some x -> lambda st = Some lam -> rhs (lm_sys st) = rh -> gain_ok l s ts lam (get_dJ (lm_base st)) x (getLmRho (total l) st x).
Proof. exact block_gain. Qed.
Print Assumptions C74_block_partial.
Theorem C74_sparse_cholesky_partial : forall csolve l ts e0 lam m, buildable l ts m -> aat_solver csolve ->
  exists x sol, sc_build l ts (eval_errors ts 0 e0) (repeat lam (total l)) true m = Ok x /\ sc_solve csolve x = Ok (x, sol) /\
    forall dx st, sol = Some dx -> lambda st = Some lam -> rhs (lm_sys st) = sc_rhs x -> gain_ok l (fun _ => 1) ts lam (get_dJ (lm_base st)) dx (getLmRho (total l) st dx).
Proof. exact sparse_gain. Qed.
Print Assumptions C74_sparse_cholesky_partial.
Example C74_case : Forall (lterm_ok lay1) [t1] /\ symmetric_solver bsolve1 /\ ~ stationary lay1 (fun _ => 1) [t1] /\ exists b x, block_attempt bsolve1 B1 (1 / 1000) b x /\ x 0%nat = - (1000000 / 1000001).
Proof. exact (conj t1_ok (conj bsolve1_ok (conj t1_moves (match attempt_first with ex_intro _ b (ex_intro _ x (conj A (conj B _))) => ex_intro _ b (ex_intro _ x (conj A B)) end)))). Qed.
(** The full statement fails: a linear error term, the default parameters, a step that lowers the cost from 1 to 1/4 exactly as predicted; the policy takes it for a bad step and nearly doubles the damping. *)
Theorem C74_refuted : exists H' rh b x s c x' s' lam', bc_build (fun _ => 1) [t2] (fresh lay1 lay1) = Ok (H', rh) /\ bc_solve bsolve1 (mkBc H' rh (fun _ => 1 / 1000) true) = Ok (b, Some x) /\
  lm_reach 1 lm_defaults s x /\ bfirst (lm_base s) = false /\ lambda s = Some (1 / 1000) /\ rhs (lm_sys s) = rh /\
  cpf c = false /\ bJ (lm_base s) = damped_cost lay1 (fun _ => 1) [t2] (fun _ => 0) no_step /\ cJ c = damped_cost lay1 (fun _ => 1) [t2] (fun _ => 0) x /\ predicted lay1 (fun _ => 1) [t2] x = 3 / 4 /\
  lm_solve 1 lm_defaults s x c = (true, x', s') /\ lambda s' = Some lam' /\ 19 / 10 * (1 / 1000) < lam'.
Proof. exact gain_wrong. Qed.
Print Assumptions C74_refuted.
