(** * C75: steps with M-estimators and the cost that decides about them

    [robust_cost l s tms y]: the sum of the robust losses (MEstimator_Spec, the losses of the literature whose derivatives the weights are, C18) after the step y, for error terms that are linear
    in the step. [reported_cost]: the sum of weight times squared error, which Optimizer2 compares. [weighted_by]: the linear system was built with the weight for the present error. *)
From Coq Require Import Arith Lia List ZArith NArith Bool Reals Lra.
From Verif Require Import Lib_Ring Lib_Real Lib_Res CCM_Model SBM_Model SBM_Spec LinSolve_Model LinSolve_Spec MEstimator_Model MEstimator_Spec Gain_Spec Policy_Model Policy_Spec LMLive_Spec Robust_Spec Robust_Proofs LMLive_Toy Robust_Toy.
Import ListNotations.
Local Open Scope R_scope.

(** C75, the step of the block solver with any conditioner never raises the robust cost, and lowers it unless the gradient is zero.
    Missing here and below: error terms that are not linear in the step, and rounding. *)
Theorem C75_block_partial : forall bsolve s l tms H A c use, layout_ok l -> represents H l l A -> Forall (lterm_ok l) (map fst tms) -> symmetric_solver bsolve -> Forall (fun tm => tuned (snd tm)) tms -> Forall weighted_by tms ->
  exists H' rhs b' sol, bc_build s (map fst tms) H = Ok (H', rhs) /\ bc_solve bsolve (mkBc H' rhs c use) = Ok (b', sol) /\
    forall x, sol = Some x -> robust_cost l s tms x <= robust_cost l s tms no_step /\ (~ stationary l s (map fst tms) -> robust_cost l s tms x < robust_cost l s tms no_step).
Proof. exact block_robust. Qed.
Print Assumptions C75_block_partial.
(* the number 0 with the measurements -4 / 5 and 4, Huber with k = 1; every lambda leads to a step *)
Example C75_case : layout_ok lay1 /\ represents (fresh lay1 lay1 : sbm R) lay1 lay1 (fun _ _ => 0) /\ Forall (lterm_ok lay1) (map fst tms3) /\ symmetric_solver bsolve1 /\ Forall (fun tm => tuned (snd tm)) tms3 /\ Forall weighted_by tms3 /\
  ~ stationary lay1 (fun _ => 1) (map fst tms3) /\ buildable lay1 (map fst tms3) (construct 0 0) /\ aat_solver csolve1 /\
  (forall lam, 0 < lam -> exists S x, sparse_attempt csolve1 1 F3 lam S x /\ x 0%nat = 1 / 5 / (5 / 4 + lam * lam)).
Proof.
  split; [exact lay1_ok|]. split; [exact fresh1_rep|]. split; [exact t3_ok|]. split; [exact bsolve1_ok|]. split; [exact t3_tuned|]. split; [exact t3_weighted|]. split; [exact t3_moves|]. split; [exact buildable3|]. split; [exact csolve1_ok|].
  intros lam L. destruct (attempt3 lam L) as (S & x & A & _ & _ & _ & E). exists S, x. split; assumption.
Qed.

(** C75, sparse Cholesky *)
Theorem C75_sparse_cholesky_partial : forall csolve l tms e0 c use m, buildable l (map fst tms) m -> length c = total l -> aat_solver csolve -> Forall (fun tm => tuned (snd tm)) tms -> Forall weighted_by tms ->
  exists x sol, sc_build l (map fst tms) (eval_errors (map fst tms) 0 e0) c use m = Ok x /\ sc_solve csolve x = Ok (x, sol) /\
    forall dx, sol = Some dx -> robust_cost l (fun _ => 1) tms dx <= robust_cost l (fun _ => 1) tms no_step /\ (~ stationary l (fun _ => 1) (map fst tms) -> robust_cost l (fun _ => 1) tms dx < robust_cost l (fun _ => 1) tms no_step).
Proof. exact sparse_robust. Qed.
Print Assumptions C75_sparse_cholesky_partial.

(** C75, dense QR *)
Theorem C75_dense_partial : forall hqr garbage l tms e0 x use, layout_ok l -> Forall (lterm_ok l) (map fst tms) -> dq_rows x = jrows (map fst tms) -> dq_cols x = total l -> dq_use x = Some use ->
  solves_problem hqr (if use : bool then jrows (map fst tms) + total l else jrows (map fst tms))%nat (total l) (above_diag use (jrows (map fst tms)) (J_of l (map fst tms)) (dq_c x)) (above_zero (jrows (map fst tms)) (e_of (map fst tms))) ->
  Forall (fun tm => tuned (snd tm)) tms -> Forall weighted_by tms ->
  exists x' dx, dq_solve hqr garbage (dq_build l (map fst tms) (eval_errors (map fst tms) 0 e0) x) = Ok (x', dx) /\
    robust_cost l (fun _ => 1) tms dx <= robust_cost l (fun _ => 1) tms no_step /\ (~ stationary l (fun _ => 1) (map fst tms) -> robust_cost l (fun _ => 1) tms dx < robust_cost l (fun _ => 1) tms no_step).
Proof. exact dense_robust. Qed.
Print Assumptions C75_dense_partial.
Example C75_dense_case : exists x, dq_rows x = jrows (map fst tms3) /\ dq_cols x = total lay1 /\ dq_use x = Some true /\
  solves_problem hqr1 (jrows (map fst tms3) + total lay1)%nat (total lay1) (above_diag true (jrows (map fst tms3)) (J_of lay1 (map fst tms3)) (dq_c x)) (above_zero (jrows (map fst tms3)) (e_of (map fst tms3))).
Proof. exists (mkDq (fun _ _ => 0) 2 1 (fun _ => 0) (fun _ => 0) (fun _ => 1) (Some true)). split; [reflexivity|]. split; [reflexivity|]. split; [reflexivity|exact hqr3_ok]. Qed.

(** The cost that is reported does not decide like the robust cost: there are two linear error terms with the Huber estimator such that Levenberg-Marquardt with its default parameters takes every step back,
    for as many steps as one likes, although the gradient is not zero and every one of these steps would lower the robust cost. So C73 needs its hypothesis that the weight is the slope of the cost that is compared. *)
Theorem C75_rejected_for_ever_refuted : Forall (lterm_ok lay1) (map fst tms3) /\ Forall (fun tm => snd tm = Huber 1) tms3 /\ Forall weighted_by tms3 /\ ~ stationary lay1 (fun _ => 1) (map fst tms3) /\
  exists fresh, sc_build lay1 (map fst tms3) (eval_errors (map fst tms3) 0 (fun _ => 0)) [0] true (construct 0 0) = Ok fresh /\
  (forall k, exists s x S, row 1 lm_defaults (sc R) (sparse_attempt csolve1 1) (reported_cost lay1 (fun _ => 1) tms3) fresh k s x S /\
    reported_cost lay1 (fun _ => 1) tms3 no_step < reported_cost lay1 (fun _ => 1) tms3 x /\ robust_cost lay1 (fun _ => 1) tms3 x < robust_cost lay1 (fun _ => 1) tms3 no_step) /\
  ~ rejections_end 1 lm_defaults (sc R) (sparse_attempt csolve1 1) (reported_cost lay1 (fun _ => 1) tms3) fresh.
Proof. exact never_accepted. Qed.
Print Assumptions C75_rejected_for_ever_refuted.

(** For one error term the reported cost orders the errors like the loss, with four of the estimators *)
Theorem C75_reports_order : forall m, tuned m -> match m with NoM | Cauchy _ | Huber _ | FixedWeight _ => True | _ => False end -> reports_order m.
Proof. exact order_kept. Qed.
Print Assumptions C75_reports_order.
Example C75_reports_order_case : tuned (Cauchy 2) /\ getWeight (Cauchy 2) 2 * 2 = 1 /\ getWeight (Cauchy 2) 6 * 6 = 3 / 2. Proof. cbn. repeat split; lra. Qed.
(** but not with Geman-McClure: as soon as the squared error exceeds sigma^2, a step that makes it larger is an improvement for Optimizer2 *)
Theorem C75_reports_order_refuted : forall sigma2 a b, 0 < sigma2 -> sigma2 <= a -> a < b ->
  getWeight (GemanMcClure sigma2) b * b < getWeight (GemanMcClure sigma2) a * a /\ loss (GemanMcClure sigma2) a < loss (GemanMcClure sigma2) b.
Proof. exact order_lost. Qed.
Print Assumptions C75_reports_order_refuted.
Example C75_reports_order_refuted_case : getWeight (GemanMcClure 1) 1 * 1 = 1 / 4 /\ getWeight (GemanMcClure 1) 4 * 4 = 4 / 25. Proof. cbn. split; field. Qed.
