(** * C86: what a run that says it converged has reached

    The states are of any type X; [move x d] is the state after the step d; e x is the stacked error, Jac x its Jacobian (C51, C52, C55, C66: the derivative); [gradient x] = J^T e, half the gradient
    of the cost. [solves]: whatever the linear solver returns solves (J^T J + lambda^2 I) y = r (C49); it may fail. [n_optimize ... x]: Optimizer2::optimize from x; [n_status]: the status it reports;
    [entries_below x L]: no entry of J^T J at x is larger than L. *)
From Coq Require Import Reals List Bool ZArith.
From Verif Require Import Lib_Ring Lib_Real Policy_Model Policy_Spec Lin_Model Lin_Spec Nlin_Model Nlin_Spec Nlin_Proofs Nlin_Proofs2 Nlin_Toy.
From Verif Require Optimizer2_Model.
Open Scope R_scope.

(** the Gauss-Newton policy, status DX: the last state is one short step away from a state at which every entry of the gradient is at most n L convergenceDeltaX *)
Theorem C86_gauss_newton_partial : forall X move n m e Jac solver, solves n m solver -> forall opt, let po := n_gauss_newton X n m e Jac solver in
  forall x l, n_optimize X move n m e po opt x = Some l -> n_status X po opt l = Optimizer2_Model.DX ->
  exists xp d, maxabs n d <= o_dx opt /\ n_x X po l = move xp d /\
    forall L, entries_below n m Jac xp L -> forall p, (p < n)%nat -> Rabs (gradient m e Jac xp p) <= INR n * L * o_dx opt.
Proof. exact gn_dx. Qed.
Print Assumptions C86_gauss_newton_partial.
Example C86_gauss_newton_case : solves 1 1 sv /\ entries_below 1 1 jq 0 1 /\
  exists l, n_optimize R mv 1 1 eq_ (n_gauss_newton R 1 1 eq_ jq sv) opt1 0 = Some l /\ n_status R (n_gauss_newton R 1 1 eq_ jq sv) opt1 l = Optimizer2_Model.DX /\ n_x R _ l = -1.
Proof. exact (conj sv_solves (conj (proj1 entries_case) (proj1 jump_dx))). Qed.

(** the line-search policy: every rejected step may weaken the bound by the factor by which it shortens the next one *)
Theorem C86_line_search_partial : forall X move n m e Jac solver, solves n m solver -> forall opt step reset scale, 0 < step <= 1 -> let po := n_line_search X n m e Jac solver step reset scale in
  forall x l, n_optimize X move n m e po opt x = Some l -> n_status X po opt l = Optimizer2_Model.DX ->
  exists xp d, maxabs n d <= o_dx opt /\ (n_x X po l = xp \/ n_x X po l = move xp d) /\
    forall L, entries_below n m Jac xp L -> forall p, (p < n)%nat -> step ^ Z.to_nat (n_fail X po l) * Rabs (gradient m e Jac xp p) <= INR n * L * o_dx opt.
Proof. exact ls_dx. Qed.
Print Assumptions C86_line_search_partial.
Example C86_line_search_case : solves 1 1 sv /\ 0 < 1 / 2 <= 1 /\
  exists l, n_optimize R mv 1 1 eq_ (n_line_search R 1 1 eq_ jq sv (1 / 2) true 1) opt1 0 = Some l /\ n_status R (n_line_search R 1 1 eq_ jq sv (1 / 2) true 1) opt1 l = Optimizer2_Model.DX /\ n_x R _ l = -1.
Proof. exact (conj sv_solves (conj half_ok (proj2 jump_dx (1 / 2) true 1))). Qed.

(** the Levenberg-Marquardt policy: the bound grows with the square of the damping lambda of the last solve *)
Theorem C86_levenberg_marquardt_partial : forall X move n m e Jac solver, solves n m solver -> forall opt P, lm_params_ok P -> 0 <= o_dx opt /\ 0 <= o_dJ opt ->
  let po := n_levenberg_marquardt X n m e Jac solver P in
  forall x l, n_optimize X move n m e po opt x = Some l -> n_status X po opt l = Optimizer2_Model.DX ->
  exists lam xp d, lambda (fst (n_pol X po l)) = Some lam /\ maxabs n d <= o_dx opt /\ (n_x X po l = xp \/ n_x X po l = move xp d) /\
    forall L, entries_below n m Jac xp L -> forall p, (p < n)%nat -> Rabs (gradient m e Jac xp p) <= (INR n * L + lam * lam) * o_dx opt.
Proof. exact lm_dx. Qed.
Print Assumptions C86_levenberg_marquardt_partial.
Example C86_levenberg_marquardt_case : solves 1 1 sv /\ entries_below 1 1 jl 0 1 /\ lm_params_ok (tlm (1 / 2)) /\
  exists l, n_optimize R mv 1 1 el (n_levenberg_marquardt R 1 1 el jl sv (tlm (1 / 2))) (topt (1 / 2)) 0 = Some l /\
    n_status R (n_levenberg_marquardt R 1 1 el jl sv (tlm (1 / 2))) (topt (1 / 2)) l = Optimizer2_Model.DX /\ gradient 1 el jl 0 0%nat = 1 /\ 1 / 2 <= gradient 1 el jl (n_x R _ l) 0%nat.
Proof. exact (conj sv_solves (conj (proj2 entries_case) (conj (tlm_ok _ half_in) (crawl _ half_in)))). Qed.

(** a run that starts where the gradient is zero stays there and reports DX after one iteration *)
Theorem C86_stationary_start : forall X move n m e Jac solver opt, solves n m solver -> (2 <= o_max opt)%Z /\ 0 <= o_dx opt /\ 0 <= o_dJ opt ->
  forall x, (forall p, (p < n)%nat -> gradient m e Jac x p = 0) -> (forall d, (forall p, (p < n)%nat -> d p = 0) -> move x d = x) ->
  let stays po := exists l, n_optimize X move n m e po opt x = Some l /\ n_x X po l = x /\ n_status X po opt l = Optimizer2_Model.DX /\ n_it X po l = 1%Z in
  ((exists mu, margin n m (Jac x) mu) -> solver (Jac x) 0 (n_rhs X m e Jac x) <> None ->
     stays (n_gauss_newton X n m e Jac solver) /\ forall step reset scale, stays (n_line_search X n m e Jac solver step reset scale)) /\
  (forall P, 0 < lambdaInit P -> solver (Jac x) (lambdaInit P) (n_rhs X m e Jac x) <> None -> stays (n_levenberg_marquardt X n m e Jac solver P)).
Proof.
  exact (fun X move n m e Jac solver opt So Oo x Gr Mv =>
    conj (fun Mg Sv => conj (gn_stationary X move n m e Jac solver opt So Oo x Gr Mv Mg Sv) (fun step reset scale => ls_stationary X move n m e Jac solver opt So Oo x Gr Mv step reset scale Mg Sv))
         (fun P Pp Sv => lm_stationary X move n m e Jac solver opt So Oo x Gr Mv P Pp Sv)).
Qed.
Print Assumptions C86_stationary_start.
Example C86_stationary_case : (forall p, (p < 1)%nat -> gradient 1 el jl (-1) p = 0) /\ (exists mu, margin 1 1 (jl (-1)) mu) /\ (forall lam, sv (jl (-1)) lam (n_rhs R 1 el jl (-1)) <> None) /\
  forall d : vec R, (forall p, (p < 1)%nat -> d p = 0) -> mv (-1) d = -1.
Proof. exact stat_case. Qed.

(** not so for the status DOBJECTIVE: a Gauss-Newton step to a state of the same cost ends the run; however small the limits are, the gradient is 1 before and -1 after the step *)
Theorem C86_objective_refuted : forall t, 0 < t < 1 -> exists l, n_optimize R mv 1 1 eq_ (n_gauss_newton R 1 1 eq_ jq sv) (topt t) 0 = Some l /\
  n_status R (n_gauss_newton R 1 1 eq_ jq sv) (topt t) l = Optimizer2_Model.DOBJECTIVE /\ gradient 1 eq_ jq 0 0%nat = 1 /\ gradient 1 eq_ jq (n_x R _ l) 0%nat = -1.
Proof. exact jump. Qed.
Print Assumptions C86_objective_refuted.
(** and for Levenberg-Marquardt the status DX alone says nothing: with a large lambdaInit the first step is short, the run ends with DX on the linear error 1 + x, the gradient is still 1/2 or more *)
Theorem C86_damping_refuted : forall t, 0 < t < 1 -> exists l, n_optimize R mv 1 1 el (n_levenberg_marquardt R 1 1 el jl sv (tlm t)) (topt t) 0 = Some l /\
  n_status R (n_levenberg_marquardt R 1 1 el jl sv (tlm t)) (topt t) l = Optimizer2_Model.DX /\ gradient 1 el jl 0 0%nat = 1 /\ 1 / 2 <= gradient 1 el jl (n_x R _ l) 0%nat.
Proof. exact crawl. Qed.
Print Assumptions C86_damping_refuted.
