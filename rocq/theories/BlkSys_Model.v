(** * BlockCholeskyLinearSystemSolver with its block linear solver

    aslam_backend/src/BlockCholeskyLinearSystemSolver.cpp ("BC"), LinearSystemSolver.cpp ("LS") on top of LinSolve_Model (assembly and damping) and BSolver_Model
    (LinearSolverCholmod, LinearSolverQr). The error terms with their current Jacobians and errors are arguments of buildSystem: between two calls the design variables may
    have changed. As in LinSolve_Model design variable b has block index b, and [l] is the list of the ends of the blocks (BC L49-54). CHOLMOD and SuiteSparseQR are
    parameters. Simplifications: those of LinSolve_Model and BSolver_Model; the sizes of _rhs, _diagonalConditioner and outDx are always those the code sets; a new vector
    outDx has arbitrary elements. *)
From Coq Require Import Arith Lia List Bool.
From Verif Require Import Lib_Ring Lib_Res SBM_Model Cov_Model BSolver_Model LinSolve_Model.
Import ListNotations.

Section BlkSys.
  Context {K : Type} {R : CRing K}.
  (* the parameters of BSolver_Model *)
  Variables (Sym Fac : Type) (analyze : nat -> list nat -> list nat -> option Sym) (analyze_p : list nat -> nat -> list nat -> list nat -> option Sym)
    (amd : nat -> list nat -> list nat -> option (list nat)) (factorize : Sym -> nat -> list nat -> list nat -> list K -> outcome Fac)
    (csolve : Fac -> vec K -> vec K) (change_factor : Fac -> option (list nat * list nat * list nat * list K)) (recip : K -> K) (sort : list (nat * nat) -> list (nat * nat))
    (QSym : Type) (qr_symbolic : nat -> nat -> list nat -> list nat -> option QSym) (qr_solve : option QSym -> nat -> nat -> list nat -> list nat -> list K -> vec K -> option (vec K)).
  (* scaling of the design variables, JacobianContainerSparseImpl.hpp L123-128 *)
  Variable scaling : nat -> K.

  (* _solver *)
  (* BlockCholeskyLinearSystemSolver.hpp L69 *)
  Inductive bsolver := Chol (s : @cst K Sym) | Qr (s : @qst K QSym).
  (* initSolver BC L111-121, the constructors BC L10-28; every type but "spqr" is Cholesky *)
  Definition newSolver (spqr : bool) : bsolver := if spqr then Qr (q_new QSym) else Chol (c_new Sym).
  (* _solver->init() *)
  (* same code: BC L111-121, BC L10-28 *)
  Definition initS (s : bsolver) : bsolver := match s with Chol s => Chol (c_init Sym s) | Qr s => Qr (q_init QSym s) end.
  (* _solver->solve(A, x, b) *)
  (* same code: BC L111-121, BC L10-28 *)
  Definition solveS (m : sbm K) (x b : vec K) (s : bsolver) : res (bsolver * (bool * vec K)) :=
    match s with
    | Chol s => do r <- c_solve Sym Fac analyze analyze_p amd factorize csolve m x b s; Ok (Chol (fst r), snd r)
    | Qr s => do r <- q_solve QSym qr_symbolic qr_solve m x b s; Ok (Qr (fst r), snd r)
    end.
  (* _solver->solvePattern(spinv, blockIndices, A); LinearSolverQr inherits linear_solver.h L61-66: false *)
  Definition patternS (m : sbm K) (bi : list (nat * nat)) (s : bsolver) : res (bsolver * (bool * option (sbm K))) :=
    match s with
    | Chol s => do r <- c_solvePattern Sym Fac analyze analyze_p amd factorize change_factor recip sort m bi s; Ok (Chol (fst r), snd r)
    | Qr s => Ok (Qr s, (false, None))
    end.

  (* _solverType, _solver; _H, _rhs, _diagonalConditioner, _useDiagonalConditioner *)
  (* BlockCholeskyLinearSystemSolver.hpp L66-74, LinearSystemSolver.hpp L107-116 *)
  Record sys := mkSys { y_spqr : bool; y_solver : bsolver; y_bc : bc K }.
  (* the constructors BC L10-28: nothing is initialised but the solver *)
  Definition sys_new (spqr : bool) (b : bc K) : sys := mkSys spqr (newSolver spqr) b.
  (* initMatrixStructure LS L97-118, BC L35-57; _rhs is not written: [rhs] is arbitrary *)
  Definition sys_init (l : list nat) (use : bool) (rhs : vec K) (y : sys) : sys :=
    mkSys (y_spqr y) (initS (newSolver (y_spqr y))) (mkBc (fresh l l) rhs (fun _ => k0) use).
  (* setConditioner, setConstantConditioner LS L85-94 *)
  Definition sys_cond (c : vec K) (y : sys) : sys := mkSys (y_spqr y) (y_solver y) (mkBc (bc_H (y_bc y)) (bc_rhs (y_bc y)) c (bc_use (y_bc y))).
  (* buildSystem BC L60-74 *)
  Definition sys_build (ts : list (lterm K)) (y : sys) : res sys :=
    do Hr <- bc_build scaling ts (bc_H (y_bc y));
    Ok (mkSys (y_spqr y) (y_solver y) (mkBc (fst Hr) (snd Hr) (bc_c (y_bc y)) (bc_use (y_bc y)))).
  (* solveSystem BC L76-108; dx: the elements of the resized outDx *)
  Definition sys_solve (dx : vec K) (y : sys) : res (sys * (bool * vec K)) :=
    let b := y_bc y in
    do H1 <- (if bc_use b then on_diagonal (vsq (bc_c b)) (bc_H b) else Ok (bc_H b));
    do r <- solveS H1 dx (bc_rhs b) (y_solver y);
    do H2 <- (if bc_use b then on_diagonal (vneg (bc_c b)) H1 else Ok H1);
    Ok (mkSys (y_spqr y) (if fst (snd r) then fst r else newSolver (y_spqr y)) (mkBc H2 (bc_rhs b) (bc_c b) (bc_use b)), snd r).
  (* computeCovarianceBlocks BC L124-150; None: the exception of L140 *)
  Definition sys_cov (bi : list (nat * nat)) (y : sys) : res (sys * option (sbm K)) :=
    let b := y_bc y in
    do H1 <- (if bc_use b then on_diagonal (vsq (bc_c b)) (bc_H b) else Ok (bc_H b));
    do r <- patternS H1 bi (y_solver y);
    if fst (snd r) then
      do H2 <- (if bc_use b then on_diagonal (vneg (bc_c b)) H1 else Ok H1);
      Ok (mkSys (y_spqr y) (fst r) (mkBc H2 (bc_rhs b) (bc_c b) (bc_use b)), snd (snd r))
    else Ok (mkSys (y_spqr y) (fst r) (mkBc H1 (bc_rhs b) (bc_c b) (bc_use b)), None).

  (* what an optimizer calls, in any order *)
  (* in the model only: the virtual functions of LinearSystemSolver.hpp as data *)
  Inductive op :=
  | OInit (l : list nat) (use : bool) (rhs : vec K)
  | OBuild (ts : list (lterm K))
  | OCond (c : vec K)
  | OSolve (dx : vec K)
  | OCov (bi : list (nat * nat)).
  (* in the model only: their results *)
  Inductive ans := ADone | ASolved (ok : bool) (dx : vec K) | ACov (P : option (sbm K)).
  (* in the model only: dispatch to the functions above *)
  Definition sys_step (o : op) (y : sys) : res (sys * ans) :=
    match o with
    | OInit l use rhs => Ok (sys_init l use rhs y, ADone)
    | OBuild ts => do y' <- sys_build ts y; Ok (y', ADone)
    | OCond c => Ok (sys_cond c y, ADone)
    | OSolve dx => do r <- sys_solve dx y; Ok (fst r, ASolved (fst (snd r)) (snd (snd r)))
    | OCov bi => do r <- sys_cov bi y; Ok (fst r, ACov (snd r))
    end.
  (* in the model only: a sequence of calls *)
  Fixpoint sys_run (l : list op) (y : sys) : res (list ans) :=
    match l with [] => Ok [] | o :: l' => do r <- sys_step o y; do a <- sys_run l' (fst r); Ok (snd r :: a) end.
End BlkSys.
Arguments op K : clear implicits. Arguments ans K : clear implicits.
Arguments OInit {K}. Arguments OBuild {K}. Arguments OCond {K}. Arguments OSolve {K}. Arguments OCov {K}. Arguments ADone {K}.
Arguments Chol {K Sym QSym} s. Arguments Qr {K Sym QSym} s.
