(** * The block linear solvers: property C68

    [proper m]: square, at least one block, no empty blocks, blocks on and above the diagonal only. [stands_for m A]: the stored blocks are those of the dense matrix A.
    [symm A]: the symmetric matrix with the upper triangle of A. [obeys None l]: between two calls of init() all matrices have the same pattern (linear_solver.h L43-48).
    [promise], [q_promise]: what a call has to deliver. [cholmod_good], [qr_good], [ldlt_good]: what is required of CHOLMOD, SuiteSparseQR and Eigen. *)
From Coq Require Import Arith List ZArith Bool Sorting.Permutation.
From Verif Require Import Lib_Ring Lib_Res SBM_Model SBM_Spec Cov_Model Cov_Spec Cov_Toy BSolver_Model BSolver_Spec BSolver_Proofs3 BSolver_Toy.
Import ListNotations.

(** C68, LinearSolverCholmod: whatever calls are made on a fresh solver, in whatever order, no memory error occurs, solve() either delivers the solution and touches nothing behind it, or reports a
    matrix that is not positive definite; solveBlocks() and solvePattern() deliver blocks of the inverse.
    Missing: matrices without rows, and failures of the library other than "not positive definite" (see below). *)
Theorem C68_cholmod_partial : forall (K : Type) (R : CRing K) Sym Fac analyze analyze_p amd factorize csolve change_factor (recip : K -> K) sort pd sym_for l,
  cholmod_good Sym Fac analyze analyze_p amd factorize csolve change_factor recip pd sym_for -> (forall q, Permutation (sort q) q) ->
  obeys None l -> Forall call_ok l ->
  exists a, c_run Sym Fac analyze analyze_p amd factorize csolve change_factor recip sort l (c_new Sym) = Ok a /\ Forall2 (promise pd) l a.
Proof. exact (fun K R => @cholmod_sessions K R). Qed.
Print Assumptions C68_cholmod_partial.
Example C68_cholmod_case : cholmod_good tsym bool tanalyze tanalyze_p tamd tfactorize tsolve tchange self tpd tfor /\ (forall q, Permutation (keep q) q) /\ obeys None session /\ Forall call_ok session /\
  match trun session with Ok l => map brief l | _ => [] end =
  [(true, []); (true, [-5; 19; -1; 7]); (true, [1; -3; -3; 14; 1; 0; 0; 0]); (true, [0; -2; 1]); (true, [1; 2; 3; 7]); (true, [1; 0; 0; 1; 1; 0; 0; 0]); (true, []); (false, [7; 7; 7; 7]); (true, []); (true, [1; 2; 3; 7])]%Z.
Proof. exact (conj lib_good (conj ckeep (conj session_obeys (conj session_calls session_run)))). Qed.

(** C68, LinearSolverQr: the same for regular matrices. *)
Theorem C68_qr_partial : forall (K : Type) (R : CRing K) QSym qr_symbolic qr_solve qsym_for reg l,
  qr_good QSym qr_symbolic qr_solve qsym_for reg -> q_obeys None l -> Forall qcall_ok l ->
  exists a, q_run QSym qr_symbolic qr_solve l (q_new QSym) = Ok a /\ Forall2 (@q_promise K R reg) l a.
Proof. exact (fun K R => @qr_sessions K R). Qed.
Print Assumptions C68_qr_partial.
Example C68_qr_case : qr_good tsym tqsym tqsolve tfor tpd /\ q_obeys None qsession /\ Forall qcall_ok qsession /\
  match tqrun qsession with Ok l => map (fun a => match a with Some (ok, x) => (ok, map x [0; 1; 2; 3]) | None => (true, []) end) l | _ => [] end =
  [(true, [-5; 19; -1; 7]); (true, [1; 2; 3; 7]); (true, []); (true, [1; 2; 3; 7])]%Z.
Proof. exact (conj qlib_good (conj qsession_obeys (conj qsession_calls qsession_run))). Qed.

(** C68, LinearSolverDense: the solution for positive definite matrices, with blocks below the diagonal or without. *)
Theorem C68_dense_partial : forall (K : Type) (R : CRing K) ldlt (pd : nat -> mat K -> Prop), ldlt_good pd ldlt -> (forall n M M', meq n n M M' -> pd n M -> pd n M') ->
  forall m A x b, well_formed m -> s_cbi m = s_rbi m -> stands_for m A -> pd (dim m) (symm A) ->
  fst (d_solve ldlt m x b) = true /\ solves (dim m) (symm A) b (snd (d_solve ldlt m x b)) /\ forall k, dim m <= k -> snd (d_solve ldlt m x b) k = x k.
Proof. exact (fun K R => @dense_solve_ok K R). Qed.
Print Assumptions C68_dense_partial.
Example C68_dense_case : ldlt_good tpd tldlt /\ (forall n M M', meq n n M M' -> tpd n M -> tpd n M') /\ (forall A, stands_for mA A -> tpd (dim mA) (symm A)) /\
  (let r := d_solve tldlt mA v0 v1 in (fst r, map (snd r) [0; 1; 2; 3]) = (true, [-5; 19; -1; 7]%Z)).
Proof. exact (conj tldlt_good (conj tpd_ext (conj mA_pd dense_run))). Qed.
(** It reports success for a system that has no solution, whatever the decomposition says. *)
Theorem C68_dense_refuted : proper mZero /\ forall ldlt x, fst (d_solve ldlt mZero x v1) = true /\ forall A y, stands_for mZero A -> ~ solves (dim mZero) (symm A) v1 y.
Proof. exact (conj mZero_ok dense_singular). Qed.
Print Assumptions C68_dense_refuted.

(** Calling init() after a change of the pattern is the duty of the caller. BlockCholeskyLinearSystemSolver::buildSystem does not do it: it keeps the blocks and adds those that the error terms
    need at the current state. With more blocks than before the solver writes beyond its array; with fewer, or with QR, the new values go to the old places and a good system is reported as bad. *)
Theorem C68_more_blocks_refuted : proper mDiag /\ proper mA /\ s_rbi mDiag = s_rbi mA /\ trun [Solve mDiag v0 v1; Solve mA v0 v1] = UB.
Proof. exact (conj mDiag_ok (conj mA_ok (conj eq_refl more_blocks))). Qed.
Print Assumptions C68_more_blocks_refuted.
Theorem C68_fewer_blocks_refuted : proper mDiag /\ proper mA /\ (forall A, stands_for mDiag A -> tpd (dim mDiag) (symm A)) /\
  match trun [Solve mA v0 v1; Solve mDiag v0 v1] with Ok l => map brief l | _ => [] end = [(true, [-5; 19; -1; 7]); (false, [7; 7; 7; 7])]%Z.
Proof. exact (conj mDiag_ok (conj mA_ok (conj mDiag_pd fewer_blocks))). Qed.
Print Assumptions C68_fewer_blocks_refuted.
Theorem C68_qr_more_blocks_refuted : proper mDiag /\ proper mA /\ (forall A, stands_for mA A -> tpd (dim mA) (symm A)) /\ exists x, tqrun [QSolve mDiag v0 v1; QSolve mA v0 v1] = Ok [x; Some (false, v0)].
Proof. exact (conj mDiag_ok (conj mA_ok (conj mA_pd q_more_blocks))). Qed.
Print Assumptions C68_qr_more_blocks_refuted.

(** A matrix without blocks is written through a null pointer, whatever the library does. *)
Theorem C68_empty_refuted : forall Sym Fac analyze analyze_p amd factorize csolve change_factor recip sort x b,
  c_run Sym Fac analyze analyze_p amd factorize csolve change_factor recip sort [Solve mNone x b] (c_new Sym) = UB.
Proof. exact empty_undefined. Qed.
Print Assumptions C68_empty_refuted.
(** A failed analysis or a failed ordering is not reported, its null pointer is used (the assert is not there in release mode). *)
Theorem C68_failed_analysis_refuted : forall Sym Fac analyze analyze_p amd factorize csolve change_factor recip sort x b, (forall n p i, analyze n p i = None) ->
  c_run Sym Fac analyze analyze_p amd factorize csolve change_factor recip sort [Solve mA x b] (c_new Sym) = UB.
Proof. exact failed_undefined. Qed.
Print Assumptions C68_failed_analysis_refuted.
Theorem C68_failed_ordering_refuted : forall Sym Fac analyze analyze_p amd factorize csolve change_factor recip sort x b, (forall n p i, amd n p i = None) ->
  c_run Sym Fac analyze analyze_p amd factorize csolve change_factor recip sort [SetOrder true; Solve mA x b] (c_new Sym) = UB.
Proof. exact failed_order. Qed.
Print Assumptions C68_failed_ordering_refuted.
