(** * Optimizer2 on nonlinear least-squares problems, in real arithmetic

    As in Lin_Model.v, but the states are anything (positions, rotations, ...), [move] applies a step to a state (DesignVariable::update of all design variables, scaling one), and the
    stacked error and its Jacobian are functions of the state. The linear solver is a function of the Jacobian it was last given by buildSystem, of its conditioner and of the
    right-hand side. The options, the record of limits and the largest entry are those of Lin_Model.v, the policies those of Policy_Model.v.
    Line numbers refer to aslam_backend/src/Optimizer2.cpp. Not modelled here: M-estimators, callbacks, rounding, the dog-leg policy. *)
From Coq Require Import Reals List Bool ZArith.
From Verif Require Import Lib_Ring Lib_Real Policy_Model Lin_Model.
From Verif Require Optimizer2_Model.
Import ListNotations.
Open Scope R_scope.

Section Nlin.
  Variables (X : Type) (move : X -> vec R -> X) (n m : nat) (e : X -> vec R) (Jac : X -> mat R).
  Variable solver : mat R -> R -> vec R -> option (vec R).
  (* the cost evaluateError returns (L304-311) *)
  Definition n_cost (x : X) : R := vdot m (e x) (e x).
  (* buildSystem (BlockCholeskyLinearSystemSolver.cpp L60-74 and the other solvers, see C06): J^T J *)
  Definition n_JtJ (x : X) : mat R := mmul m (mtr (Jac x)) (Jac x).
  (* same code: BlockCholeskyLinearSystemSolver.cpp L60-74: the right-hand side -J^T e *)
  Definition n_rhs (x : X) : vec R := fun p => - mvmul m (mtr (Jac x)) (e x) p.
  (* LinearSystemSolver.hpp (rhs, rhsJtJrhs): what the policies see of the built system *)
  Definition n_system (x : X) : system := mkSystem (n_rhs x) (vdot m (mvmul n (Jac x) (n_rhs x)) (mvmul n (Jac x) (n_rhs x))).
  (* _solver->setConstantConditioner(lam), _solver->solveSystem(dx) with the system built at x: called by the policies, GaussNewtonTrustRegionPolicy.cpp L22-24,
     LevenbergMarquardtTrustRegionPolicy.cpp L87-88 *)
  Definition n_reply (x : X) (lam : R) (dx : vec R) : bool * vec R := match solver (Jac x) lam (n_rhs x) with Some y => (true, y) | None => (false, dx) end.

  (* TrustRegionPolicy.hpp: revertOnFailure, optimizationStarting, solveSystem, as in Lin_Model.v *)
  Record npolicy := mkNpolicy { NS : Type; np_reverts : bool; np_start : R -> NS; np_solve : NS -> R -> bool -> X -> vec R -> bool * vec R * NS }.
  (* GaussNewtonTrustRegionPolicy.cpp L19-26 *)
  Definition n_gauss_newton : npolicy :=
    mkNpolicy system false (fun _ => mkSystem (fun _ => 0) 0) (fun _ J pf x dx => gn_solve (mkCall J pf (n_system x) (n_reply x 0 dx))).
  (* LineSearchTrustRegionPolicy.cpp L15-40; sc0 is the scale left by an earlier run *)
  Definition n_line_search (step : R) (reset : bool) (sc0 : R) : npolicy :=
    mkNpolicy ls true (fun J => ls_start J sc0 (mkSystem (fun _ => 0) 0)) (fun s J pf x dx => ls_solve step reset s dx (mkCall J pf (n_system x) (n_reply x 0 dx))).
  (* LevenbergMarquardtTrustRegionPolicy.cpp L61-84: is the system built anew in this call? *)
  Definition lm_builds (P : lmparams) (s : lm) (J : R) (pf : bool) (dx : vec R) : bool :=
    let b := base_enter (lm_base s) (mkCall J pf (lm_sys s) (true, dx)) in
    if bfirst b then true else snd (lm_update P pf (getLmRho n (mkLm b (lambda s) (mu s) (lm_sys s)) dx) (lambda s) (mu s)).
  (* LevenbergMarquardtTrustRegionPolicy.cpp L50-89: the policy and the state at which its solver has built the system it holds; lambda = NaN makes the solve fail *)
  Definition n_lm_call (P : lmparams) (s : lm * option X) (J : R) (pf : bool) (x : X) (dx : vec R) : bool * vec R * (lm * option X) :=
    let at_ := if lm_builds P (fst s) J pf dx then Some x else snd s in
    let after := snd (lm_solve n P (fst s) dx (mkCall J pf (n_system x) (true, dx))) in
    let r := match lambda after, at_ with Some lam, Some y => n_reply y lam dx | _, _ => (false, dx) end in
    let '(ok, d, s') := lm_solve n P (fst s) dx (mkCall J pf (n_system x) r) in (ok, d, (s', at_)).
  (* same code: LevenbergMarquardtTrustRegionPolicy.cpp L38-89 *)
  Definition n_levenberg_marquardt (P : lmparams) : npolicy :=
    mkNpolicy (lm * option X) true (fun J => (lm_start P J (mkSystem (fun _ => 0) 0), None)) (n_lm_call P).

  Variable po : npolicy.
  Variable opt : ropt.
  (* the variables of the loop (L159-191), as in Lin_Model.v *)
  Record nst := mkNst { n_x : X; n_J : R; n_pJ : R; n_mdx : R; n_dJ : R; n_pf : bool; n_lsf : bool; n_it : Z; n_fail : Z; n_d : vec R; n_pol : NS po }.
  (* L187-191 *)
  Definition n_continue (l : nst) : bool :=
    (n_it l <? o_max opt)%Z && (n_fail l <? o_max opt)%Z && ((rlt (o_dx opt) (n_mdx l) && rlt (o_dJ opt) (Rabs (n_dJ l))) || n_lsf l).
  (* L193-242 *)
  Definition n_iteration (l : nst) : nst :=
    let '(ok, d, q) := np_solve po (n_pol l) (n_J l) (n_pf l) (n_x l) (n_d l) in
    if ok then
      let x := move (n_x l) d in
      let J := n_cost x in
      let dJ := n_pJ l - J in
      if np_reverts po then
        if rlt dJ 0 then mkNst (n_x l) J (n_pJ l) (maxabs n d) dJ true (n_lsf l) (n_it l + 1) (n_fail l + 1) d q
        else mkNst x J J (maxabs n d) dJ false (n_lsf l) (n_it l + 1) (n_fail l) d q
      else mkNst x J J (maxabs n d) dJ (n_pf l) (n_lsf l) (n_it l + 1) (n_fail l) d q
    else mkNst (n_x l) (n_J l) (n_pJ l) (n_mdx l) (n_dJ l) true true (n_it l) (n_fail l + 1) d q.
  (* L187-243 *)
  Fixpoint n_loop (fuel : nat) (l : nst) : option nst :=
    if n_continue l then match fuel with O => None | S f => n_loop f (n_iteration l) end else Some l.
  (* L159-182, first call after initialize() *)
  Definition n_start (x : X) : nst :=
    mkNst x (n_cost x) (n_cost x) (o_dx opt + 1) (o_dJ opt + 1) false false 0 0 (fun _ => 0) (np_start po (n_cost x)).
  (* same code: L159-243 *)
  Definition n_optimize (x : X) : option nst := n_loop (Z.to_nat (o_max opt) + Z.to_nat (o_max opt)) (n_start x).
  (* L250-258 *)
  Definition n_status (l : nst) : Optimizer2_Model.convergence :=
    if (o_max opt <=? n_it l)%Z then Optimizer2_Model.MAX_ITERATIONS
    else if n_lsf l || (o_max opt <=? n_fail l)%Z then Optimizer2_Model.FAILURE
    else if rle (n_mdx l) (o_dx opt) then Optimizer2_Model.DX
    else if rle (Rabs (n_dJ l)) (o_dJ opt) then Optimizer2_Model.DOBJECTIVE
    else Optimizer2_Model.IN_PROGRESS.
End Nlin.
