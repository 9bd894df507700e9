(** * C82: linear least-squares problems are solved

    [margin n m A mu]: the n columns of the Jacobian A are independent, |A v|^2 >= mu |v|^2. [solver_ok]: the linear solver solves (A^T A + lambda^2 I) y = r for every lambda (C49, C72 for the four
    implementations). [lin_optimize ... opt x]: Optimizer2::optimize from x, None if the loop had not ended. [minimal x]: no other state has a lower cost. [l_x], [l_pJ], [l_it], [l_fail], [lin_status]:
    the state, JFinal, iterations, failedIterations and the status that optimize() leaves. *)
From Coq Require Import Reals List Bool ZArith.
From Verif Require Import Lib_Ring Lib_Real Policy_Model Policy_Spec Policy_Proofs3 Lin_Model Lin_Spec Lin_Proofs Lin_Proofs2 Lin_Proofs3 Lin_Toy.
From Verif Require Optimizer2_Model.
Open Scope R_scope.

(** there is one lowest cost, reached at one place only *)
Theorem C82_minimum : forall n m A b mu solver, margin n m A mu -> solver_ok n m A solver ->
  (exists x, minimal n m A b x) /\ forall x z, minimal n m A b x -> minimal n m A b z -> veq n x z.
Proof. exact one_minimum. Qed.
Print Assumptions C82_minimum.
Example C82_minimum_case : margin 2 3 A3 1 /\ solver_ok 2 3 A3 solver3 /\ cost 2 3 A3 b3 (fun _ => 0) = 41 /\ cost 2 3 A3 b3 (fun i => match i with 0%nat => 2 | _ => 3 end) = 3.
Proof. exact (conj margin3 (conj solver3_ok far3)). Qed.

(** the Gauss-Newton policy: from every start, whatever the limits *)
Theorem C82_gauss_newton : forall n m A b mu solver opt, margin n m A mu -> solver_ok n m A solver -> opt_ok opt ->
  forall x, solved_exactly n m A b opt (gauss_newton n m A b solver) x.
Proof. exact (fun n m A b mu solver opt Mg So Oo => solved_newton n m A b mu opt Mg Oo _ (gn_newton n m A b solver So)). Qed.
Print Assumptions C82_gauss_newton.
Example C82_gauss_newton_case : margin 2 3 A3 1 /\ solver_ok 2 3 A3 solver3 /\ opt_ok opt3. Proof. exact (conj margin3 (conj solver3_ok opt3_ok)). Qed.

(** the line-search policy: its full first steps are kept, whatever its parameters and the scale an earlier run has left *)
Theorem C82_line_search : forall n m A b mu solver opt step reset scale, margin n m A mu -> solver_ok n m A solver -> opt_ok opt ->
  forall x, solved_exactly n m A b opt (line_search n m A b solver step reset scale) x.
Proof. exact (fun n m A b mu solver opt step reset scale Mg So Oo => solved_newton n m A b mu opt Mg Oo _ (ls_newton n m A b solver So step reset scale)). Qed.
Print Assumptions C82_line_search.
Example C82_line_search_case : margin 2 3 A3 1 /\ solver_ok 2 3 A3 solver3 /\ opt_ok opt3. Proof. exact (conj margin3 (conj solver3_ok opt3_ok)). Qed.

(** the Levenberg-Marquardt policy: no step is ever taken back, the damping stays below max(lambdaInit, beta), the cost converges geometrically, and a run that says it converged is near the minimum *)
Theorem C82_levenberg_marquardt : forall n m A b mu solver opt, margin n m A mu -> solver_ok n m A solver -> opt_ok opt ->
  forall P, lm_params_ok P -> forall x xs, minimal n m A b xs -> solved_nearly n m A b mu opt (levenberg_marquardt n m A b solver P) (damping P) xs x.
Proof. exact solved_lm. Qed.
Print Assumptions C82_levenberg_marquardt.
Example C82_levenberg_marquardt_case : margin 2 3 A3 1 /\ solver_ok 2 3 A3 solver3 /\ opt_ok opt3 /\ lm_params_ok lm_defaults /\ exists xs, minimal 2 3 A3 b3 xs.
Proof. exact (conj margin3 (conj solver3_ok (conj opt3_ok (conj lm_defaults_ok (proj1 (one_minimum 2 3 A3 b3 1 solver3 margin3 solver3_ok)))))). Qed.

(** not so: a run that has reached the minimum says so; with maxIterations = 1 it reports MAX_ITERATIONS at the minimum *)
Theorem C82_status_refuted : ~ (forall n m A b mu solver opt, margin n m A mu -> solver_ok n m A solver -> opt_ok opt -> forall x l,
  lin_optimize n m A b (gauss_newton n m A b solver) opt x = Some l -> minimal n m A b (l_x _ l) -> lin_status _ opt l <> Optimizer2_Model.MAX_ITERATIONS).
Proof. exact (fun F => match silent3 with ex_intro _ l (conj E (conj M T)) => F 2%nat 3%nat A3 b3 1 solver3 _ margin3 solver3_ok opt1_ok _ l E M T end). Qed.
Print Assumptions C82_status_refuted.
