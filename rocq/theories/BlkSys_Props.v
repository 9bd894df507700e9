(** * BlockCholeskyLinearSystemSolver over a sequence of calls: property C69

    [sys_run l y]: the calls l on the object y, one after the other. [disciplined l (nothing b)]: initMatrixStructure comes first, solveSystem and computeCovarianceBlocks come after a
    buildSystem, and between two calls of initMatrixStructure the error terms always couple the same design variables. [all_delivered]: each solveSystem delivers the solution of the damped
    normal equations of the error terms of the last buildSystem or reports a matrix that is not positive definite, each computeCovarianceBlocks the asked blocks of the inverse. *)
From Coq Require Import Arith List ZArith Bool Sorting.Permutation.
From Verif Require Import Lib_Ring Lib_Res SBM_Model SBM_Spec Cov_Model Cov_Spec Cov_Toy BSolver_Model BSolver_Spec BSolver_Toy LinSolve_Model LinSolve_Spec BlkSys_Model BlkSys_Spec BlkSys_Proofs BlkSys_Toy.
Import ListNotations.

(** C69: whatever disciplined calls are made, with CHOLMOD or SuiteSparseQR, no memory error occurs and every call delivers.
    Missing: error terms whose design variables change, a second solve of the same system with a conditioner (C48), covariances with SuiteSparseQR. *)
Theorem C69_sessions_partial : forall (K : Type) (R : CRing K) Sym Fac analyze analyze_p amd factorize csolve change_factor (recip : K -> K) sort pd sym_for QSym qr_symbolic qr_solve qsym_for reg scaling,
  cholmod_good Sym Fac analyze analyze_p amd factorize csolve change_factor recip pd sym_for -> qr_good QSym qr_symbolic qr_solve qsym_for reg -> (forall q, Permutation (sort q) q) ->
  (forall n M M', meq n n M M' -> pd n M -> pd n M') -> (forall n M M', meq n n M M' -> reg n M -> reg n M') ->
  forall spqr b l, disciplined l (nothing b) ->
  exists a, sys_run Sym Fac analyze analyze_p amd factorize csolve change_factor recip sort QSym qr_symbolic qr_solve scaling l (sys_new Sym QSym spqr b) = Ok a /\ all_delivered scaling spqr pd reg l a (nothing b).
Proof. exact (fun K R => @session_delivers K R). Qed.
Print Assumptions C69_sessions_partial.
Example C69_cholmod_case : cholmod_good tsym bool tanalyze tanalyze_p tamd tfactorize tsolve tchange self tpd tfor /\ qr_good tsym tqsym tqsolve tfor tpd /\ (forall q, Permutation (keep q) q) /\
  (forall n M M', meq n n M M' -> tpd n M -> tpd n M') /\ disciplined story (nothing b0) /\ (forall ts, scaled_cols clay one (J_of clay ts) (J_of clay ts)) /\
  tpd 3 (damped (after (OInit clay false garbage) (nothing b0)) [tFull] (J_of clay [tFull])) /\
  match trunS false story with Ok l => map short l | _ => [] end =
  [(true, []); (true, []); (true, [0; -3; 1]); (true, [0; -2; 1]); (true, []); (true, [-4; -5; -6]);
   (true, []); (true, []); (true, []); (true, [0; -1; 0]); (true, []); (true, []); (false, [9; 9; 9]); (true, []); (true, []); (true, [0; -1; 0]); (true, []); (true, [0; 0; 1])]%Z.
Proof. exact (conj lib_good (conj qlib_good (conj ckeep (conj tpd_ext (conj story_ok (conj plain_cols (conj full_pd story_chol))))))). Qed.
Example C69_qr_case : disciplined qstory (nothing b0) /\ tpd 3 (damped (after (OCond last1) (after (OInit clay true garbage) (nothing b0))) [tFlat] (J_of clay [tFlat])) /\
  match trunS true qstory with Ok l => map short l | _ => [] end =
  [(true, []); (true, []); (true, [0; -3; 1]); (true, []); (true, [-4; -5; -6]); (true, []); (true, []); (true, []); (true, [0; -1; 0])]%Z.
Proof. exact (conj qstory_ok (conj flat_pd qstory_run)). Qed.

(** When an error term couples two design variables that were not coupled at the first linearisation, buildSystem adds a block and does not tell the solver: the next solveSystem writes beyond
    the end of an array. The same system is solved when it is the first. *)
Theorem C69_new_coupling_refuted : Forall (lterm_ok clay) [only0; only1] /\ Forall (lterm_ok clay) [tFull] /\
  match trunS false [OInit clay false garbage; OBuild [tFull]; OSolve garbage] with Ok l => map short l | _ => [] end = [(true, []); (true, []); (true, [0; -3; 1])]%Z /\
  trunS false [OInit clay false garbage; OBuild [only0; only1]; OSolve garbage; OBuild [tFull]; OSolve garbage] = UB.
Proof. exact (conj (proj1 grown_terms) (conj (proj2 grown_terms) (conj grown_ok grown))). Qed.
Print Assumptions C69_new_coupling_refuted.

(** With SuiteSparseQR computeCovarianceBlocks throws although the normal matrix is good, whatever the libraries do. *)
Theorem C69_qr_covariance_refuted : tpd 3 (damped (after (OInit clay false garbage) (nothing b0)) [tFull] (J_of clay [tFull])) /\
  forall Sym Fac analyze analyze_p amd factorize csolve change_factor recip sort QSym qr_symbolic qr_solve bi,
  sys_run Sym Fac analyze analyze_p amd factorize csolve change_factor recip sort QSym qr_symbolic qr_solve one [OInit clay false garbage; OBuild [tFull]; OCov bi] (sys_new Sym QSym true b0) = Ok [ADone; ADone; ACov None].
Proof. exact (conj full_pd qr_no_covariance). Qed.
Print Assumptions C69_qr_covariance_refuted.
