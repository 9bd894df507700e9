(** * Optimizer2 on linear least-squares problems, in real arithmetic

    The loop of Optimizer2.cpp is the one of Optimizer2_Model.v (doubles, arbitrary environment, C21 to C23); here its numbers are real numbers and its environment is a linear
    problem: vector design variables with scaling one, error terms whose stacked error is A x + b, no M-estimators, no callbacks. The trust-region policies are those of Policy_Model.v.
    Line numbers refer to aslam_backend/src/Optimizer2.cpp. Simplified: one column of numbers for all design variables; the solver is a function of the conditioner and the right-hand side
    (its four implementations: C49, C72). The dog-leg policy: LinDL_Model.v. *)
From Coq Require Import Reals List Bool ZArith.
From Verif Require Import Lib_Ring Lib_Real Policy_Model.
From Verif Require Optimizer2_Model.
Import ListNotations.
Open Scope R_scope.

Section Lin.
  Variables (n m : nat) (A : mat R) (b : vec R).
  (* the stacked error of all terms, and the cost evaluateError returns (L304-311) *)
  Definition err (x : vec R) : vec R := vadd b (mvmul n A x).
  (* same code: L304-311 *)
  Definition cost (x : vec R) : R := vdot m (err x) (err x).
  (* J^T J and -J^T e: LinearSystemSolver::buildSystem, see C06 *)
  (* same code: L304-311 *)
  Definition JtJ : mat R := mmul m (mtr A) A.
  (* same code: L304-311 *)
  Definition mJte (x : vec R) : vec R := fun p => - mvmul m (mtr A) (err x) p.
  (* same code: L304-311 *)
  Definition system_at (x : vec R) : system := mkSystem (mJte x) (vdot m (mvmul n A (mJte x)) (mvmul n A (mJte x))).
  (* _solver->setConstantConditioner(lambda), _solver->solveSystem(dx): the right-hand side of the system it holds *)
  Variable solver : R -> vec R -> option (vec R).
  (* same code: L304-311 *)
  Definition reply (lam : R) (r dx : vec R) : bool * vec R := match solver lam r with Some y => (true, y) | None => (false, dx) end.

  (* TrustRegionPolicy: revertOnFailure() (TrustRegionPolicy.cpp L22-25 and the overriding ones), optimizationStarting(J), solveSystem(J, previousIterationFailed, nThreads, dx) with the design variables at x *)
  Record policy := mkPolicy { PS : Type; p_reverts : bool; p_start : R -> PS; p_solve : PS -> R -> bool -> vec R -> vec R -> bool * vec R * PS }.
  (* GaussNewtonTrustRegionPolicy.cpp L19-26 *)
  Definition gauss_newton : policy :=
    mkPolicy system false (fun _ => mkSystem (fun _ => 0) 0) (fun _ J pf x dx => gn_solve (mkCall J pf (system_at x) (reply 0 (mJte x) dx))).
  (* LineSearchTrustRegionPolicy.cpp L15-40; sc0 is the scale left by an earlier run *)
  Definition line_search (step : R) (reset : bool) (sc0 : R) : policy :=
    mkPolicy ls true (fun J => ls_start J sc0 (mkSystem (fun _ => 0) 0)) (fun s J pf x dx => ls_solve step reset s dx (mkCall J pf (system_at x) (reply 0 (mJte x) dx))).
  (* LevenbergMarquardtTrustRegionPolicy.cpp L50-89: the solver is asked with the lambda and the system that this call has just set; lambda = NaN makes the solve fail *)
  Definition lm_after (P : lmparams) (s : lm) (J : R) (pf : bool) (x dx : vec R) : lm := snd (lm_solve n P s dx (mkCall J pf (system_at x) (true, dx))).
  (* same code: LevenbergMarquardtTrustRegionPolicy.cpp L50-89 *)
  Definition lm_reply (s : lm) (dx : vec R) : bool * vec R := match lambda s with Some lam => reply lam (rhs (lm_sys s)) dx | None => (false, dx) end.
  (* same code: LevenbergMarquardtTrustRegionPolicy.cpp L50-89 *)
  Definition levenberg_marquardt (P : lmparams) : policy :=
    mkPolicy lm true (fun J => lm_start P J (mkSystem (fun _ => 0) 0))
      (fun s J pf x dx => lm_solve n P s dx (mkCall J pf (system_at x) (lm_reply (lm_after P s J pf x dx) dx))).

  (* OptimizerBase.hpp L43-71 *)
  Record ropt := mkRopt { o_dx : R; o_dJ : R; o_max : Z }.
  Variable po : policy.
  Variable opt : ropt.
  (* the variables of the loop: the design variables, _p_J, deltaX, deltaJ, previousIterationFailed, linearSolverFailure, srv.iterations, srv.failedIterations, _dx, the policy;
     the cost of _status.error at the current x is l_J (after a step was taken back it is the cost of the rejected state, L213) *)
  Record lst := mkLst { l_x : vec R; l_J : R; l_pJ : R; l_mdx : R; l_dJ : R; l_pf : bool; l_lsf : bool; l_it : Z; l_fail : Z; l_d : vec R; l_pol : PS po }.
  (* _dx.array().abs().maxCoeff(), L289 *)
  Fixpoint maxabs (k : nat) (v : vec R) : R := match k with O => 0 | S k' => Rmax (maxabs k' v) (Rabs (v k')) end.
  (* L187-191 *)
  Definition lin_continue (l : lst) : bool :=
    (l_it l <? o_max opt)%Z && (l_fail l <? o_max opt)%Z && ((rlt (o_dx opt) (l_mdx l) && rlt (o_dJ opt) (Rabs (l_dJ l))) || l_lsf l).
  (* L193-242 *)
  Definition lin_iteration (l : lst) : lst :=
    let '(ok, d, q) := p_solve po (l_pol l) (l_J l) (l_pf l) (l_x l) (l_d l) in
    if ok then
      let x := vadd (l_x l) d in
      let J := cost x in
      let dJ := l_pJ l - J in
      if p_reverts po then
        if rlt dJ 0 then mkLst (l_x l) J (l_pJ l) (maxabs n d) dJ true (l_lsf l) (l_it l + 1) (l_fail l + 1) d q
        else mkLst x J J (maxabs n d) dJ false (l_lsf l) (l_it l + 1) (l_fail l) d q
      else mkLst x J J (maxabs n d) dJ (l_pf l) (l_lsf l) (l_it l + 1) (l_fail l) d q
    else mkLst (l_x l) (l_J l) (l_pJ l) (l_mdx l) (l_dJ l) true true (l_it l) (l_fail l + 1) d q.
  (* L187-243; the bound on the recursion is enough, each pass raises one of two limited counters *)
  Fixpoint lin_loop (fuel : nat) (l : lst) : option lst :=
    if lin_continue l then match fuel with O => None | S f => lin_loop f (lin_iteration l) end else Some l.
  (* L159-182, first call after initialize() *)
  Definition lin_start (x : vec R) : lst :=
    mkLst x (cost x) (cost x) (o_dx opt + 1) (o_dJ opt + 1) false false 0 0 (fun _ => 0) (p_start po (cost x)).
  (* same code: L159-182 *)
  Definition lin_optimize (x : vec R) : option lst := lin_loop (Z.to_nat (o_max opt) + Z.to_nat (o_max opt)) (lin_start x).
  (* L250-258 *)
  Definition lin_status (l : lst) : Optimizer2_Model.convergence :=
    if (o_max opt <=? l_it l)%Z then Optimizer2_Model.MAX_ITERATIONS
    else if l_lsf l || (o_max opt <=? l_fail l)%Z then Optimizer2_Model.FAILURE
    else if rle (l_mdx l) (o_dx opt) then Optimizer2_Model.DX
    else if rle (Rabs (l_dJ l)) (o_dJ opt) then Optimizer2_Model.DOBJECTIVE
    else Optimizer2_Model.IN_PROGRESS.
End Lin.
