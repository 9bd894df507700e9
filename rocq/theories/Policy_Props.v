(** * Trust-region policies: the properties C24, C25, C26 (policies) and C60 *)
From Coq Require Import Reals Lra List Bool.
From Verif Require Import Lib_Ring Lib_Real Policy_Model Policy_Spec Policy_Proofs Policy_Proofs2 Policy_Proofs3 Policy_Proofs4.
Import ListNotations.
Open Scope R_scope.

(** ** C24: Levenberg-Marquardt damping *)
(** in every history in which no gain ratio is 0/0 the damping is positive, bounded away from zero by a number that depends only on the
    parameters *)
Theorem C24_positive_partial : forall n P, lm_params_ok P -> exists low, 0 < low /\
  forall s dx, lm_reach n P s dx -> exists l, lambda s = Some l /\ low <= l.
Proof.
  exact (fun n P OK => ex_intro _ (floor_ P) (conj (floor_pos P OK)
    (fun s dx H => match lm_inv n P s dx OK H with ex_intro _ l (conj A (conj B _)) => ex_intro _ l (conj A B) end))).
Qed.
Print Assumptions C24_positive_partial.
(** a failed step multiplies it by a factor of at least two *)
Theorem C24_failure : forall n P s dx c ok dx' s', lm_params_ok P -> lm_reach n P s dx -> lm_failed n s dx c ->
  lm_solve n P s dx c = (ok, dx', s') ->
  exists l f, lambda s = Some l /\ lambda s' = Some (l * f) /\ f = mu s' /\ 2 * mu s <= f /\ 2 <= f /\ lm_sys s' = lm_sys s.
Proof. exact lm_failure_step. Qed.
Print Assumptions C24_failure.
(** the factor at least doubles at each consecutive failure *)
Theorem C24_consecutive_failures : forall n P s dx c ok dx1 s1 c2 ok2 dx2 s2, lm_params_ok P -> lm_reach n P s dx ->
  lm_failed n s dx c -> lm_solve n P s dx c = (ok, dx1, s1) ->
  lm_failed n s1 dx1 c2 -> lm_solve n P s1 dx1 c2 = (ok2, dx2, s2) ->
  exists l f1 f2, lambda s = Some l /\ lambda s1 = Some (l * f1) /\ lambda s2 = Some (l * f1 * f2) /\ 2 <= f1 /\ 2 * f1 <= f2.
Proof. exact lm_two_failures. Qed.
Print Assumptions C24_consecutive_failures.
(** a successful step multiplies it by a factor between 1/gamma and beta, unless it is at most 1e-16, when it becomes 1e-15 *)
Theorem C24_success_partial : forall n P s dx c ok dx' s', lm_params_ok P -> lm_reach n P s dx -> lm_succeeded n s dx c ->
  lm_solve n P s dx c = (ok, dx', s') ->
  exists l, lambda s = Some l /\ lm_sys s' = cfresh c /\
   (1 / 10 ^ 16 < l -> exists f, lambda s' = Some (l * f) /\ 1 / gamma P <= f <= beta P) /\
   (l <= 1 / 10 ^ 16 -> lambda s' = Some (1 / 10 ^ 15)).
Proof. exact lm_success_step. Qed.
Print Assumptions C24_success_partial.
(** the full statement fails: a 0/0 gain ratio (zero step, unchanged cost) makes the damping NaN *)
Theorem C24_nan_refuted : exists s dx c ok dx' s', lm_reach 1 lm_defaults s dx /\ cpf c = false /\
  lm_solve 1 lm_defaults s dx c = (ok, dx', s') /\ lambda s' = None.
Proof. exact lm_nan_ex. Qed.
Print Assumptions C24_nan_refuted.
(** and a successful step can enlarge a tiny damping by more than beta *)
Theorem C24_jump_refuted : lm_params_ok lm_tiny /\ exists s dx c ok dx' s' l l', lm_reach 1 lm_tiny s dx /\ lm_succeeded 1 s dx c /\
  lm_solve 1 lm_tiny s dx c = (ok, dx', s') /\ lambda s = Some l /\ lambda s' = Some l' /\ beta lm_tiny * l < l'.
Proof. exact lm_jump_ex. Qed.
Print Assumptions C24_jump_refuted.

Example C24_example : lm_params_ok lm_defaults /\
  (exists s dx c, lm_reach 1 lm_defaults s dx /\ lm_failed 1 s dx c /\
    exists ok dx1 s1 c2, lm_solve 1 lm_defaults s dx c = (ok, dx1, s1) /\ lm_failed 1 s1 dx1 c2) /\
  (exists s dx c, lm_reach 1 lm_tiny s dx /\ lm_succeeded 1 s dx c).
Proof. exact (conj lm_defaults_ok (conj lm_failures_ex lm_success_ex)). Qed.

(** ** C25: dog-leg steps *)
(** in every history of successful solves of Gauss-Newton systems with full-rank Jacobian and non-zero gradient, the radius is positive, the
    step is inside the region and on a dog-leg path between the Cauchy and Gauss-Newton steps that the policy holds *)
Theorem C25_inside_partial : forall n s dx, dl_reach n (gn_system n) s dx -> bfirst (d_base s) = false ->
  0 < d_delta s /\ norm n dx <= d_delta s /\
  ((exists t, 0 <= t <= 1 /\ dx = vscale t (d_sd s)) \/
   (exists gn be, d_gn s = Some gn /\ 0 <= be <= 1 /\ veq n dx (vadd (d_sd s) (vscale be (vsub gn (d_sd s)))))).
Proof. exact dl_main. Qed.
Print Assumptions C25_inside_partial.
(** a step computed after an accepted step lies on the dog-leg path of the system built for the current state *)
Theorem C25_path : forall n s dx c ok dx' s', dl_reach n (gn_system n) s dx -> (bfirst (d_base s) = true -> cpf c = false) ->
  fst (csolve c) = true -> gn_system n c -> dl_solve n s dx c = DLok ok dx' s' -> cpf c = false ->
  ok = true /\ dogleg n (cauchy n (cfresh c)) (snd (csolve c)) dx'.
Proof. exact dl_fresh_path. Qed.
Print Assumptions C25_path.
(** it is the Gauss-Newton step whenever that fits into the region *)
Theorem C25_gauss_newton : forall n s dx c ok dx' s', dl_reach n (gn_system n) s dx -> (bfirst (d_base s) = true -> cpf c = false) ->
  fst (csolve c) = true -> gn_system n c -> dl_solve n s dx c = DLok ok dx' s' -> cpf c = false ->
  norm n (snd (csolve c)) <= d_delta s' -> veq n dx' (snd (csolve c)).
Proof. exact dl_gn_fits. Qed.
Print Assumptions C25_gauss_newton.
(** without the assumption on the gradient the claim is false: at a zero gradient the step is NaN *)
Theorem C25_zero_gradient_refuted : forall n s dx J H solve,
  dl_solve n s dx (mkCall J false (mkSystem (fun _ => 0) (vdot n (fun _ => 0) (mvmul n H (fun _ => 0)))) solve) = DLNaN.
Proof. exact dl_zero_gradient. Qed.
Print Assumptions C25_zero_gradient_refuted.
(** and without the assumption that solves succeed, too: the step after a failed solve is outside the region *)
Theorem C25_failed_solve_refuted :
  let c1 := mkCall 5 false (sys1 1 1) (false, cv 100) in let c2 := mkCall 5 true (sys1 1 1) (true, cv 0) in
  exists s1 s2 dx2, dl_solve 1 (dl_start dl_new 5) (cv 0) c1 = DLok false (cv 0) s1 /\
    dl_solve 1 s1 (cv 0) c2 = DLok true dx2 s2 /\ dx2 = cv 100 /\ d_delta s2 < norm 1 dx2.
Proof. exact dl_after_failure. Qed.
Print Assumptions C25_failed_solve_refuted.

Example C25_example : (exists s dx, dl_reach 1 (gn_system 1) s dx /\ bfirst (d_base s) = false) /\
  (forall J pf g, g <> 0 -> gn_system 1 (mkCall J pf (sys1 g (g * g)) (true, cv g))).
Proof. exact (conj dl_reach_ex gn_system_1). Qed.

(** ** C26: failed linear solves, policy side *)
(** Levenberg-Marquardt and Gauss-Newton return exactly what the solver returned in this call, so they never pass off a failed solve as a
    step nor return an older vector; Gauss-Newton rebuilds the system each time *)
Theorem C26_lm_gn : (forall n P s dx c, fst (lm_solve n P s dx c) = csolve c) /\
  (forall c, fst (gn_solve c) = csolve c /\ snd (gn_solve c) = cfresh c).
Proof. exact (conj lm_uses_solver (fun c => conj (eq_sym (surjective_pairing (csolve c))) eq_refl)). Qed.
Print Assumptions C26_lm_gn.
(** the Levenberg-Marquardt policy always solves the system of the current state, as long as accepted steps have a positive gain ratio *)
Theorem C26_lm_fresh_partial : forall n P s dx cur, lm_protocol n P s dx cur ->
  cur = None /\ bfirst (lm_base s) = true \/ cur = Some (lm_sys s) /\ bfirst (lm_base s) = false.
Proof. exact lm_fresh. Qed.
Print Assumptions C26_lm_fresh_partial.
(** otherwise it solves a stale system *)
Theorem C26_lm_stale_refuted : exists s dx c s' ok dx', lm_protocol 1 lm_defaults s dx (Some (sys1 1 1)) /\ cpf c = false /\ cfresh c = sys1 7 7 /\
  lm_solve 1 lm_defaults s dx c = (ok, dx', s') /\ lm_sys s' = sys1 1 1.
Proof. exact lm_stale. Qed.
Print Assumptions C26_lm_stale_refuted.
(** the dog-leg policy returns, as a success, the vector that the failed solve of the previous call left behind *)
Theorem C26_dogleg_refuted :
  let c1 := mkCall 5 false (sys1 1 1) (false, cv 100) in let c2 := mkCall 5 true (sys1 1 1) (true, cv 0) in
  exists s1 s2 dx2, dl_solve 1 (dl_start dl_new 5) (cv 0) c1 = DLok false (cv 0) s1 /\
    dl_solve 1 s1 (cv 0) c2 = DLok true dx2 s2 /\ dx2 = cv 100 /\ d_delta s2 < norm 1 dx2.
Proof. exact dl_after_failure. Qed.
Print Assumptions C26_dogleg_refuted.
(** the line search policy: after a solve (first call, or previous step accepted), [length cs] rejections in a row return the solution of
    that solve shortened by the step factor each time, for the system of that solve *)
Theorem C26_linesearch_partial : forall step reset s dx c cs, (bfirst (ls_base s) = true \/ cpf c = false) -> Forall (fun c => cpf c = true) cs ->
  let r := fold_left (fun r c' => ls_solve step reset (snd r) (snd (fst r)) c') cs (ls_solve step reset s dx c) in
  (forall i, snd (fst r) i = step ^ length cs * snd (csolve c) i) /\ ls_sys (snd r) = cfresh c /\ (fst (csolve c) = true -> fst (fst r) = true).
Proof. exact ls_backtracks. Qed.
Print Assumptions C26_linesearch_partial.
(** like the dog-leg policy, it returns, as a success, the scaled vector of a failed solve *)
Theorem C26_linesearch_refuted : forall step reset J v,
  let c1 := mkCall J false (sys1 1 1) (false, cv v) in let c2 := mkCall J true (sys1 1 1) (true, cv 0) in
  exists s1 s2, ls_solve step reset (ls_start J 1 (sys1 0 0)) (cv 0) c1 = (false, cv v, s1) /\
    ls_solve step reset s1 (cv v) c2 = (true, vscale step (cv v), s2).
Proof. exact ls_after_failure. Qed.
Print Assumptions C26_linesearch_refuted.

(** ** C60: rejected dog-leg steps *)
(** the radius follows the gain ratio that the policy computes (cost decrease divided by the predicted decrease, after a rejection measured from
    the cost before the last accepted step): below 1/4 it becomes at most half, above 3/4 it does not shrink and at most triples, otherwise
    (also for NaN) it stays; in particular a rejected step with such a ratio below 1/4 shrinks the region *)
Theorem C60_shrinks_partial : forall n s dx c, dl_reach n (gn_system n) s dx -> bfirst (d_base s) = false -> fst (csolve c) = true -> gn_system n c ->
  forall ok dx' s', dl_solve n s dx c = DLok ok dx' s' ->
  let rho := xdiv ((if cpf c then bpJ (d_base s) else bJ (d_base s)) - cJ c) (d_L0 s) in
  (xlt rho (1 / 4) = true -> d_delta s' <= d_delta s / 2) /\
  (xgt rho (3 / 4) = true -> d_delta s <= d_delta s' <= 3 * d_delta s) /\
  (xlt rho (1 / 4) = false -> xgt rho (3 / 4) = false -> d_delta s' = d_delta s).
Proof. exact dl_gain_rule. Qed.
Print Assumptions C60_shrinks_partial.
(** but the policy compares the rejected cost with the cost before the last accepted step: the costs 1000 (start), 500 (accepted), 600
    (rejected) triple the radius, and the rejected step is proposed again *)
Theorem C60_rejected_step_refuted :
  let c1 := mkCall 1000 false (sys1 10 (10 * 10)) (true, cv 10) in
  let c2 := mkCall 500 false (sys1 20 (20 * 20)) (true, cv 20) in
  let c3 := mkCall 600 true (sys1 20 (20 * 20)) (true, cv 20) in
  exists s1 dx1 s2 dx2 s3 dx3,
    dl_solve 1 (dl_start dl_new 1000) (cv 0) c1 = DLok true dx1 s1 /\
    dl_solve 1 s1 dx1 c2 = DLok true dx2 s2 /\
    dl_solve 1 s2 dx2 c3 = DLok true dx3 s3 /\
    d_delta s2 = 10 /\ d_delta s3 = 30 /\ veq 1 dx2 (cv 10) /\ veq 1 dx3 (cv 10).
Proof. exact dl_rejected_grows. Qed.
Print Assumptions C60_rejected_step_refuted.

Example C60_example : (exists s dx c ok dx' s', dl_reach 1 (gn_system 1) s dx /\ bfirst (d_base s) = false /\ fst (csolve c) = true /\ gn_system 1 c /\
  dl_solve 1 s dx c = DLok ok dx' s' /\ xlt (xdiv ((if cpf c then bpJ (d_base s) else bJ (d_base s)) - cJ c) (d_L0 s)) (1 / 4) = true /\
  xle (xdiv ((if cpf c then bpJ (d_base s) else bJ (d_base s)) - cJ c) (d_L0 s)) 0 = false) /\
  (forall J pf g, g <> 0 -> gn_system 1 (mkCall J pf (sys1 g (g * g)) (true, cv g))).
Proof. exact (conj dl_gain_ex gn_system_1). Qed.
Example C26_example : exists s dx, lm_protocol 1 lm_defaults s dx (Some (sys1 1 1)).
Proof. exact (match lm_stale with ex_intro _ s (ex_intro _ dx (ex_intro _ _ (ex_intro _ _ (ex_intro _ _ (ex_intro _ _ (conj H _)))))) => ex_intro _ s (ex_intro _ dx H) end). Qed.
Example C26_linesearch_example : forall J, bfirst (ls_base (ls_start J 1 (sys1 0 0))) = true /\
  Forall (fun c => cpf c = true) [mkCall J true (sys1 1 1) (true, cv 1); mkCall J true (sys1 2 2) (true, cv 2)].
Proof. intros J. repeat constructor. Qed.
