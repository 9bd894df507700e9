(** * Optimizer2: the main loop, written over an arbitrary environment.
    The environment (error terms, linear solver, trust-region policy, design variables, callbacks) is a type of worlds [W]
    together with arbitrary functions on it, so every theorem about [optimize] holds for all their behaviours and histories.
    Numbers are IEEE doubles (Lib_Float), so NaN, infinities and rounding of the control-flow arithmetic are included.
    Not modelled: console output, timers, C++ exceptions thrown by user code. *)
From Coq Require Import ZArith List Bool.
From Flocq Require Import BinarySingleNaN.
From Verif Require Import Lib_Res Lib_Float.
Import ListNotations.
Open Scope Z_scope.

(* aslam_backend/include/aslam/backend/OptimizerBase.hpp L33-41: enum ConvergenceStatus *)
Inductive convergence := IN_PROGRESS | FAILURE | GRADIENT_NORM | DX | DOBJECTIVE | MAX_ITERATIONS.

(* aslam_backend/include/aslam/backend/OptimizerBase.hpp L43-71: the options that the loop of Optimizer2 reads *)
Record options := mkOptions { convergenceDeltaX : b64; convergenceDeltaError : b64; maxIterations : Z }.

(* aslam_backend/include/aslam/backend/OptimizerBase.hpp L94-101 (OptimizerStatus), backend.hpp L14-27 (SolutionReturnValue) and
   Optimizer2.hpp L59-63: the fields of _status used by optimizeImplementation *)
Record status := mkStatus {
  error : b64; maxDeltaX : b64; deltaError : b64; conv : convergence; numIterations : Z;
  numJacobianEvaluations : Z; numErrorEvaluations : Z;
  JStart : b64; JFinal : b64; iterations : Z; failedIterations : Z; dXFinal : b64; dJFinal : b64; srvLinearSolverFailure : bool }.

(* aslam_backend/include/aslam/backend/OptimizerBase.hpp L94-101 and backend.hpp L15-17: the values after reset() *)
Definition status0 : status :=
  mkStatus (fl (2 ^ 53 - 1) 971) NaN NaN IN_PROGRESS 0 0 0 f0 f0 0 0 f0 f0 false.

(* aslam_backend/include/aslam/backend/OptimizerCallback.hpp L17-78: the events issued by the loop itself *)
Inductive event := OPTIMIZATION_INITIALIZED | LINEAR_SYSTEM_SOLVED | DESIGN_VARIABLES_UPDATED.

(* ghost: what the loop did to the outside world, newest first. Not in the code; it makes the executed actions visible to the theorems.
   Optimizer2.cpp L166/L213 (OEval), L194 (OSolve), L208 (OApply), L222 (ORevert) *)
Inductive op := OEval (c : b64) | OSolve (ok : bool) | OApply | ORevert.

Section Loop.
  (* the outside world; [D] is the type of step vectors (_dx) *)
  Context {W D : Type}.
  Record env := mkEnv {
    (* LinearSystemSolver::evaluateError + COST_UPDATED callback, Optimizer2.cpp L304-311; the second argument is _p_J *)
    eEval : W -> b64 -> b64 * W;
    (* TrustRegionPolicy::setSolver/optimizationStarting, Optimizer2.cpp L181-182 *)
    eStart : W -> b64 -> W;
    (* TrustRegionPolicy::solveSystem(error, previousIterationFailed, nThreads, _dx), Optimizer2.cpp L194 *)
    eSolve : W -> b64 -> bool -> D -> bool * D * W;
    (* size_t(_dx.size()) == numOptParameters(), Optimizer2.cpp L196 *)
    eSize : W -> D -> bool;
    (* applyStateUpdate: updates the design variables, returns max |dx|, Optimizer2.cpp L276-291 *)
    eApply : W -> D -> b64 * W;
    (* revertLastStateUpdate, Optimizer2.cpp L297-302 *)
    eRevert : W -> W;
    (* issueCallback; the returned ProceedInstruction is dropped by the caller, Optimizer2.cpp L184, L198, L210 *)
    eCallback : event -> W -> W;
    (* TrustRegionPolicy::revertOnFailure, Optimizer2.cpp L217; constant for every policy in the repository *)
    eRevertOnFailure : bool }.

  Variable E : env.
  Variable opt : options.

  (* the loop's variables: Optimizer2.cpp L159-178; _p_J, _dx and _status are members, the two flags are locals *)
  Record loopst := mkLoop {
    st : status; pJ : b64; prevFailed : bool; lsf : bool; dx : D; world : W; log : list op }.

  (* Optimizer2.cpp L304-311 *)
  Definition evaluateError (l : loopst) : loopst :=
    let '(e, w) := eEval E (world l) (pJ l) in
    let s := st l in
    mkLoop (mkStatus e (maxDeltaX s) (deltaError s) (conv s) (numIterations s) (numJacobianEvaluations s) (numErrorEvaluations s + 1)
              (JStart s) (JFinal s) (iterations s) (failedIterations s) (dXFinal s) (dJFinal s) (srvLinearSolverFailure s))
           (pJ l) (prevFailed l) (lsf l) (dx l) w (OEval e :: log l).

  (* Optimizer2.cpp L187-191: the loop condition *)
  Definition continue_ (l : loopst) : bool :=
    let s := st l in
    (iterations s <? maxIterations opt) && (failedIterations s <? maxIterations opt) &&
    ((fgt (maxDeltaX s) (convergenceDeltaX opt) && fgt (fabs (deltaError s)) (convergenceDeltaError opt)) || lsf l).

  (* Optimizer2.cpp L200-204: the solve failed *)
  Definition solve_failed (l : loopst) : loopst :=
    let s := st l in
    mkLoop (mkStatus (error s) (maxDeltaX s) (deltaError s) (conv s) (numIterations s) (numJacobianEvaluations s) (numErrorEvaluations s)
              (JStart s) (JFinal s) (iterations s) (failedIterations s + 1) (dXFinal s) (dJFinal s) (srvLinearSolverFailure s))
           (pJ l) true true (dx l) (world l) (log l).

  (* Optimizer2.cpp L208-210: apply the step *)
  Definition apply_step (l : loopst) : loopst :=
    let '(d, w) := eApply E (world l) (dx l) in
    let s := st l in
    mkLoop (mkStatus (error s) d (deltaError s) (conv s) (numIterations s) (numJacobianEvaluations s) (numErrorEvaluations s)
              (JStart s) (JFinal s) (iterations s) (failedIterations s) (dXFinal s) (dJFinal s) (srvLinearSolverFailure s))
           (pJ l) (prevFailed l) (lsf l) (dx l) (eCallback E DESIGN_VARIABLES_UPDATED w) (OApply :: log l).

  (* Optimizer2.cpp L215-237: accept or revert *)
  Definition judge_step (l : loopst) : loopst :=
    let s := st l in
    let dJ := fsub (pJ l) (error s) in
    let mk fails p pf w lg :=
      mkLoop (mkStatus (error s) (maxDeltaX s) dJ (conv s) (iterations s + 1) (numJacobianEvaluations s) (numErrorEvaluations s)
                (JStart s) (JFinal s) (iterations s + 1) fails (dXFinal s) (dJFinal s) (srvLinearSolverFailure s))
             p pf (lsf l) (dx l) w lg in
    if eRevertOnFailure E then
      if flt dJ f0 then mk (failedIterations s + 1) (pJ l) true (eRevert E (world l)) (ORevert :: log l)
      else mk (failedIterations s) (error s) false (world l) (log l)
    else mk (failedIterations s) (error s) (prevFailed l) (world l) (log l).

  (* Optimizer2.cpp L193-242: one pass through the loop body *)
  Definition iteration (l : loopst) : res loopst :=
    let s := st l in
    let '(ok, d, w) := eSolve E (world l) (error s) (prevFailed l) (dx l) in
    let s1 := mkStatus (error s) (maxDeltaX s) (deltaError s) (conv s) (numIterations s) (numJacobianEvaluations s + 1) (numErrorEvaluations s)
              (JStart s) (JFinal s) (iterations s) (failedIterations s) (dXFinal s) (dJFinal s) (srvLinearSolverFailure s) in
    if eSize E w d then
      let l1 := mkLoop s1 (pJ l) (prevFailed l) (lsf l) d (eCallback E LINEAR_SYSTEM_SOLVED w) (OSolve ok :: log l) in
      Ok (if ok then judge_step (evaluateError (apply_step l1)) else solve_failed l1)
    else Throw.

  (* Optimizer2.cpp L187-243: the loop; [fuel] only bounds the recursion, running out of it is a distinct outcome (theorems show
     that it never happens when enough is given) *)
  Fixpoint loop (fuel : nat) (l : loopst) : option (res loopst) :=
    if continue_ l then
      match fuel with
      | O => None
      | S f => match iteration l with Ok l' => loop f l' | Throw => Some Throw | UB => Some UB end
      end
    else Some (Ok l).

  (* Optimizer2.cpp L160-184: before the loop *)
  Definition prologue (s : status) (d : D) (w : W) : loopst :=
    let l0 := mkLoop (mkStatus (error s) (maxDeltaX s) (deltaError s) (conv s) (iterations s) (numJacobianEvaluations s) (numErrorEvaluations s)
                (JStart s) (JFinal s) (iterations s) (failedIterations s) (dXFinal s) (dJFinal s) (srvLinearSolverFailure s))
              (fopp (fz 1)) false false d w [] in
    let l1 := evaluateError l0 in
    let s1 := st l1 in
    mkLoop (mkStatus (error s1) (fadd (convergenceDeltaX opt) (fz 1)) (fadd (convergenceDeltaError opt) (fz 1)) (conv s1)
              (numIterations s1) (numJacobianEvaluations s1) (numErrorEvaluations s1)
              (error s1) (JFinal s1) (iterations s1) (failedIterations s1) (dXFinal s1) (dJFinal s1) (srvLinearSolverFailure s1))
           (error s1) false false (dx l1) (eCallback E OPTIMIZATION_INITIALIZED (eStart E (world l1) (error s1))) (log l1).

  (* Optimizer2.cpp L250-258: the reported convergence; the old value stays when no branch is taken *)
  Definition final_convergence (l : loopst) : convergence :=
    let s := st l in
    if maxIterations opt <=? iterations s then MAX_ITERATIONS
    else if lsf l || (maxIterations opt <=? failedIterations s) then FAILURE
    else if fle (maxDeltaX s) (convergenceDeltaX opt) then DX
    else if fle (fabs (deltaError s)) (convergenceDeltaError opt) then DOBJECTIVE
    else conv s.

  (* Optimizer2.cpp L244-258: after the loop *)
  Definition epilogue (l : loopst) : loopst :=
    let s := st l in
    mkLoop (mkStatus (pJ l) (maxDeltaX s) (deltaError s) (final_convergence l) (numIterations s) (numJacobianEvaluations s) (numErrorEvaluations s)
              (JStart s) (pJ l) (iterations s) (failedIterations s) (maxDeltaX s) (deltaError s) (lsf l))
           (pJ l) (prevFailed l) (lsf l) (dx l) (world l) (log l).

  (* Optimizer2.cpp L152-259: optimizeImplementation with the given bound on the recursion *)
  Definition optimize_fuel (fuel : nat) (s : status) (d : D) (w : W) : option (res loopst) :=
    match loop fuel (prologue s d w) with
    | Some (Ok l) => Some (Ok (epilogue l))
    | o => o
    end.

  (* enough recursion for every run: each pass raises one of the two counters, both of which are limited by maxIterations *)
  (* in the model only: recursion *)
  Definition enough (s : status) : nat :=
    Z.to_nat (maxIterations opt - iterations s) + Z.to_nat (maxIterations opt - failedIterations s).

  (* Optimizer2.cpp L152-259 *)
  Definition optimize (s : status) (d : D) (w : W) : option (res loopst) := optimize_fuel (enough s) s d w.
End Loop.

(* OptimizerBase.cpp L122-127 with Optimizer2.cpp L146-150: a second call on an initialized optimizer starts from the status that the
   first one left; only initialize() resets it (OptimizerBase.cpp L129-139) *)
Definition optimize_again {W D} (E : @env W D) (opt : options) (l : @loopst W D) : option (res loopst) :=
  optimize E opt (st l) (dx l) (world l).
