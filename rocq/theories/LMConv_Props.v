(** * C89: Levenberg-Marquardt from any first guess

    The states are of any type X, [move x d] is the state after the step d, e x is the stacked error of m numbers, Jac x its Jacobian; [n_cost] = |e|^2, [gradient] = J^T e.  [tame c L K]: wherever the
    cost is at most c, no entry of J^T J is larger than L and |e (move x d) - e x - J d| <= K |d|^2.  [answers]: with a positive conditioner lambda the linear solver returns the solution of
    (J^T J + lambda^2 I) y = - J^T e (C49).  [steady P]: gammaInit >= 1, betaInit > 1, muInit >= 1, lambdaInit > 0, pInit is odd, gammaInit < 2 muInit and gammaInit < 2 betaInit.
    [nearly_stationary eps x]: no entry of the gradient at x is larger than eps.  [n_optimize ... opt x]: Optimizer2::optimize from x (Nlin_Model.v), [state k]: the loop after k iterations. *)
From Coq Require Import Reals List Bool ZArith.
From Verif Require Import Lib_Ring Lib_Real Policy_Model Policy_Spec Lin_Model Nlin_Model Nlin_Spec Nlin_Toy LMConv_Spec LMConv_Proofs3 LMConv_Toy.
From Verif Require Optimizer2_Model.
Open Scope R_scope.

(** for every eps > 0 there is a number N of iterations, the same for all tame problems, all first guesses of cost at most c and all solvers: among any N + 1 successive
    states of a run there is one that is stationary up to eps, unless the run ends before that with the status DX or DOBJECTIVE, or at the iteration limit *)
Theorem C89_reaches_partial : forall n P L K c eps, steady P -> 0 <= L -> 0 <= K -> 0 < eps ->
  exists N, forall X move m (e : X -> vec R) Jac solver opt x, answers n m solver -> 0 <= o_dx opt /\ 0 <= o_dJ opt -> tame n m move e Jac c L K -> n_cost X m e x <= c ->
    let po := n_levenberg_marquardt X n m e Jac solver P in let state k := after move n m e po k (n_start X m e po opt x) in
    forall k0, (forall j, (j < k0)%nat -> n_continue X po opt (state j) = true) ->
    exists k, (k0 <= k <= k0 + N)%nat /\ (forall j, (j < k)%nat -> n_continue X po opt (state j) = true) /\
      (nearly_stationary n m e Jac eps (n_x X po (state k)) \/
       n_optimize X move n m e po opt x = Some (state k) /\
         (n_status X po opt (state k) = Optimizer2_Model.DX \/ n_status X po opt (state k) = Optimizer2_Model.DOBJECTIVE \/ (o_max opt <= Z.of_nat k)%Z)).
Proof. exact reaches. Qed.
Print Assumptions C89_reaches_partial.

(** the damping lambda stays between two positive numbers that depend on P, K and c only, no solve fails, and the status DX means that the last state is a state, or one short step away from a state,
    at which the gradient is at most (n L + hi^2) convergenceDeltaX: unlike in C86 the factor is known before the run *)
Theorem C89_damping : forall n P L K c, steady P -> 0 <= L -> 0 <= K -> 0 <= c -> exists lo hi, 0 < lo /\ lo <= hi /\
  forall X move m (e : X -> vec R) Jac solver opt x, answers n m solver -> 0 <= o_dx opt /\ 0 <= o_dJ opt -> tame n m move e Jac c L K -> n_cost X m e x <= c ->
    let po := n_levenberg_marquardt X n m e Jac solver P in
    forall k, (forall j, (j < k)%nat -> n_continue X po opt (after move n m e po j (n_start X m e po opt x)) = true) ->
      let l := after move n m e po k (n_start X m e po opt x) in
      n_lsf X po l = false /\ (exists lam, lambda (fst (n_pol X po l)) = Some lam /\ lo <= lam <= hi) /\
      (n_status X po opt l = Optimizer2_Model.DX -> exists xp, n_cost X m e xp <= c /\ (n_x X po l = xp \/ exists d, maxabs n d <= o_dx opt /\ n_x X po l = move xp d) /\
         nearly_stationary n m e Jac ((INR n * L + hi * hi) * o_dx opt) xp).
Proof. exact damping. Qed.
Print Assumptions C89_damping.
(** the hypotheses of both are met by the default parameters, the error 1 + x + x^2 (which is nowhere 0) and the first guess 0, which is not stationary *)
Example C89_case : steady lm_defaults /\ answers 1 1 sv /\ (0 <= o_dx (topt (1 / 2)) /\ 0 <= o_dJ (topt (1 / 2))) /\ tame 1 1 mv eq_ jq 1 1 1 /\
  n_cost R 1 eq_ 0 <= 1 /\ ~ nearly_stationary 1 1 eq_ jq (1 / 2) 0.
Proof. exact (conj defaults_steady (conj sv_answers (conj topt_ok (conj eq_tame eq_start)))). Qed.
