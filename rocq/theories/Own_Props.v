(** * C79: what CHOLMOD hands out is freed once *)
From Coq Require Import Arith List Bool Sorting.Permutation.
From Verif Require Import Own_Model Own_Spec Own_Proofs Own_Proofs2 Own_Proofs3 Own_Toy.
Import ListNotations.

(** C79: SparseCholeskyLinearSystemSolver. Whatever is called in whatever order, and whatever fails or throws on the way: no null pointer is followed, nothing
    is used after it was freed or freed twice, between calls exactly the factor and CHOLMOD's workspace are allocated, and after the destructor nothing is. *)
Theorem C79_cholesky : forall orc, promise orc -> forall os,
  exists thrown w, runs (sc_exec orc) os 0 constructed = Ret thrown w /\ tidy KFactor w /\ exists w', sc_destroy w = Ret tt w' /\ live w' = [].
Proof. exact sc_history. Qed.
Print Assumptions C79_cholesky.
Example C79_cholesky_case : promise (fails_sometimes CAnalyze) /\
  exists w, runs (sc_exec (fails_sometimes CAnalyze)) toy_history 0 constructed = Ret 1 w /\ length (live w) = 2 /\ is_null (factor w) = false.
Proof. exact (conj (sometimes_promise CAnalyze) toy_run). Qed.

(** C79: SparseQrLinearSystemSolver. Nothing is used after it was freed or freed twice, and the calls that return leave only the factor and the workspace.
    Missing: a call that throws may lose up to two objects, and a null pointer may be followed. *)
Theorem C79_qr_partial : forall orc, promise orc -> forall os,
  match runs (sq_exec orc) os 0 constructed with
  | Ret thrown w => exists lost, tidy_but KQr lost w /\ length lost <= 2 * thrown /\ exists w', sq_destroy w = Ret tt w' /\ Permutation (live w') lost
  | UBnull => True
  | Exc _ | UBdead => False
  end.
Proof. exact sq_all. Qed.
Print Assumptions C79_qr_partial.
Example C79_qr_case : promise (fails CNumeric SOther) /\ exists w, runs (sq_exec (fails CNumeric SOther)) [SqInit; SqBuild; SqSolve false false] 0 constructed = Ret 0 w /\ tidy KQr w.
Proof. exact (conj (fails_promise CNumeric SOther ltac:(discriminate)) no_norm_null). Qed.

(** C79: no null pointer is followed when memory does not run out and, for solves with column scaling, the numerical factorisation does not fail. *)
Theorem C79_qr_defined : forall orc, promise orc -> gives orc CTranspose -> gives orc CAllocDense -> forall os,
  (forall verbose, In (SqSolve true verbose) os -> works orc CNumeric /\ gives orc CQrSolve) ->
  match runs (sq_exec orc) os 0 constructed with Ret _ _ => True | _ => False end.
Proof. exact sq_defined. Qed.
Print Assumptions C79_qr_defined.
Example C79_qr_defined_case : promise (fails CNumeric SOther) /\ gives (fails CNumeric SOther) CTranspose /\ gives (fails CNumeric SOther) CAllocDense /\
  (forall verbose, In (SqSolve true verbose) [SqInit; SqBuild; SqSolve false true; SqGetR true] -> works (fails CNumeric SOther) CNumeric /\ gives (fails CNumeric SOther) CQrSolve).
Proof. exact (conj (fails_promise CNumeric SOther ltac:(discriminate)) (conj (fun _ => eq_refl) (conj (fun _ => eq_refl) no_scaled_solve))). Qed.

(** C79, what does not hold for SparseQrLinearSystemSolver: objects are lost when the scaling or the computation of R fails, and a factorisation that fails with
    column scaling makes the solver follow a null pointer instead of reporting failure. *)
Theorem C79_qr_refuted :
  (exists orc w w', promise orc /\ runs (sq_exec orc) [SqInit; SqBuild; SqSolve true false] 0 constructed = Ret 1 w /\ sq_destroy w = Ret tt w' /\ map snd (live w') = [KDense; KSparse]) /\
  (exists orc w w', promise orc /\ runs (sq_exec orc) [SqInit; SqBuild; SqGetR true] 0 constructed = Ret 1 w /\ sq_destroy w = Ret tt w' /\ map snd (live w') = [KSparse]) /\
  (exists orc, promise orc /\ gives orc CTranspose /\ gives orc CAllocDense /\ runs (sq_exec orc) [SqInit; SqBuild; SqSolve true false] 0 constructed = UBnull).
Proof. exact qr_refuted. Qed.
Print Assumptions C79_qr_refuted.

(** C79: LinearSolverCholmod never loses an object, never uses or frees one twice. Missing: it follows null pointers when CHOLMOD fails. *)
Theorem C79_block_cholesky_partial : forall orc, promise orc -> forall os,
  match runs (lc_exec orc) os 0 constructed with
  | Ret thrown w => thrown = 0 /\ tidy KFactor w /\ exists w', lc_destroy w = Ret tt w' /\ live w' = []
  | UBnull => ~ (gives orc CAnalyze /\ gives orc CSolve /\ works orc CAmd /\ works orc CChange)
  | Exc _ | UBdead => False
  end.
Proof. exact lc_all. Qed.
Print Assumptions C79_block_cholesky_partial.
Example C79_block_cholesky_case : promise (fails CFactorize SNotPosdef) /\
  exists w, runs (lc_exec (fails CFactorize SNotPosdef)) [LcInit; LcSolve true; LcInverse false; LcSolve false] 0 constructed = Ret 0 w /\ factor w = None /\ length (live w) = 1.
Proof. exact (conj (fails_promise CFactorize SNotPosdef ltac:(discriminate)) lc_toy). Qed.
Theorem C79_block_cholesky_refuted : exists orc, promise orc /\ runs (lc_exec orc) [LcInit; LcSolve false] 0 constructed = UBnull.
Proof. exact (ex_intro _ (fails CSolve SOther) (conj (fails_promise CSolve SOther ltac:(discriminate)) lc_null)). Qed.
Print Assumptions C79_block_cholesky_refuted.

(** C79: LinearSolverQr follows no null pointer and uses or frees nothing twice. Missing: each solve may lose two objects, the workspace of the previous solve
    (CHOLMOD is started again) and, when it fails, an intermediate result. *)
Theorem C79_block_qr_partial : forall orc, promise orc -> forall os,
  match runs (lq_exec orc) os 0 constructed with
  | Ret thrown w => thrown = 0 /\ exists lost, tidy_but KQr lost w /\
      length lost <= 2 * length (filter (fun o => match o with LqSolve => true | LqInit => false end) os) /\ exists w', lq_destroy w = Ret tt w' /\ Permutation (live w') lost
  | _ => False
  end.
Proof. exact lq_history. Qed.
Print Assumptions C79_block_qr_partial.
(** C79: it loses nothing when nothing fails and no workspace is allocated. *)
Theorem C79_block_qr_quiet : forall orc, promise orc -> (forall c n, an_work (orc c n) = false /\ an_stat (orc c n) = SOk) -> forall os,
  match runs (lq_exec orc) os 0 constructed with Ret thrown w => thrown = 0 /\ tidy KQr w /\ exists w', lq_destroy w = Ret tt w' /\ live w' = [] | _ => False end.
Proof. exact lq_history_tidy. Qed.
Print Assumptions C79_block_qr_quiet.
Example C79_block_qr_case : promise (fun _ _ => mkAns false true SOk false true) /\
  (forall (c : call) (n : nat), an_work ((fun _ _ => mkAns false true SOk false true) c n) = false /\ an_stat ((fun (_ : call) (_ : nat) => mkAns false true SOk false true) c n) = SOk).
Proof. exact quiet_lib. Qed.
Theorem C79_block_qr_refuted :
  (exists orc w w', promise orc /\ runs (lq_exec orc) [LqInit; LqSolve; LqSolve; LqSolve] 0 constructed = Ret 0 w /\ lq_destroy w = Ret tt w' /\ map snd (live w') = [KWork; KWork]) /\
  (exists orc w w', promise orc /\ runs (lq_exec orc) [LqInit; LqSolve] 0 constructed = Ret 0 w /\ lq_destroy w = Ret tt w' /\ map snd (live w') = [KDense]).
Proof. exact lq_refuted. Qed.
Print Assumptions C79_block_qr_refuted.

(** C79, what does not hold: the solvers can be copied; the copy has the same factor, and destroying both frees it twice. *)
Theorem C79_copy_refuted : exists orc w w', promise orc /\ runs (sc_exec orc) [ScInit; ScBuild; ScSolve] 0 constructed = Ret 0 w /\ sc_destroy w = Ret tt w' /\ sc_destroy (copy_of w w') = UBdead.
Proof. exact (ex_intro _ good_lib (let (w, H) := copy_dead in let (w', H2) := H in ex_intro _ w (ex_intro _ w' (conj good_promise H2)))). Qed.
Print Assumptions C79_copy_refuted.
