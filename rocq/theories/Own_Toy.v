(** * Ownership: concrete cases and counterexamples *)
From Coq Require Import Arith List Bool Sorting.Permutation.
From Verif Require Import Own_Model Own_Spec.
Import ListNotations.

(* a library in which everything succeeds and the first call allocates the workspace *)
Definition good_lib : call -> nat -> ans := fun _ _ => mkAns false true SOk true true.
(* the same, but calls of one function fail *)
Definition call_eqb (a b : call) : bool :=
  match a, b with
  | CAnalyze, CAnalyze | CFactorize, CFactorize | CSolve, CSolve | CTranspose, CTranspose | CSymbolic, CSymbolic | CNumeric, CNumeric | CAllocDense, CAllocDense
  | CScale, CScale | CQmult, CQmult | CQrSolve, CQrSolve | CQr, CQr | CAat, CAat | CAmd, CAmd | CChange, CChange => true
  | _, _ => false
  end.
Definition fails (bad : call) (s : stat) : call -> nat -> ans := fun c _ => if call_eqb c bad then mkAns true false s true true else mkAns false true SOk true true.
(* every second call of a function fails *)
Definition fails_sometimes (bad : call) : call -> nat -> ans := fun c n => if call_eqb c bad && Nat.odd n then mkAns true false SOther true true else mkAns false true SOk true true.

Lemma good_promise : promise good_lib.
Proof. intros c n. cbn. split; [discriminate|]. intros H. exfalso. apply H. reflexivity. Qed.
Lemma fails_promise : forall bad s, s <> SOk -> promise (fails bad s).
Proof. intros bad s Hs c n. unfold fails. destruct (call_eqb c bad); cbn; split; intros H; auto; try discriminate; exfalso; apply H; reflexivity. Qed.
Lemma sometimes_promise : forall bad, promise (fails_sometimes bad).
Proof. intros bad c n. unfold fails_sometimes. destruct (call_eqb c bad && Nat.odd n); cbn; split; intros H; auto; try discriminate; exfalso; apply H; reflexivity. Qed.

(* a run with failures: the first factorisation fails, a later one does not; a solve throws because the analysis fails *)
Definition toy_history : list sc_op := [ScInit; ScBuild; ScSolve; ScSolve; ScInit; ScSolve; ScSolve].
Lemma toy_run : exists w, runs (sc_exec (fails_sometimes CAnalyze)) toy_history 0 constructed = Ret 1 w /\ length (live w) = 2 /\ is_null (factor w) = false.
Proof. eexists. split; [vm_compute; reflexivity|]. split; vm_compute; reflexivity. Qed.

(* SparseQr: the scaling fails (exception), R cannot be computed (exception) *)
Lemma scale_leaks : exists w w', runs (sq_exec (fails CScale SOther)) [SqInit; SqBuild; SqSolve true false] 0 constructed = Ret 1 w /\ sq_destroy w = Ret tt w' /\ map snd (live w') = [KDense; KSparse].
Proof. do 2 eexists. split; [vm_compute; reflexivity|]. split; [vm_compute; reflexivity|]. vm_compute. reflexivity. Qed.
Lemma getR_leaks : exists w w', runs (sq_exec (fails CQr SOther)) [SqInit; SqBuild; SqGetR true] 0 constructed = Ret 1 w /\ sq_destroy w = Ret tt w' /\ map snd (live w') = [KSparse].
Proof. do 2 eexists. split; [vm_compute; reflexivity|]. split; [vm_compute; reflexivity|]. vm_compute. reflexivity. Qed.
(* a factorisation that fails with column scaling: a null pointer is followed *)
Lemma norm_null : runs (sq_exec (fails CNumeric SOther)) [SqInit; SqBuild; SqSolve true false] 0 constructed = UBnull.
Proof. vm_compute. reflexivity. Qed.
Lemma no_norm_null : exists w, runs (sq_exec (fails CNumeric SOther)) [SqInit; SqBuild; SqSolve false false] 0 constructed = Ret 0 w /\ tidy KQr w.
Proof. eexists. split; [vm_compute; reflexivity|]. unfold tidy, tidy_but, own. cbn. apply perm_swap || auto. Qed.
(* LinearSolverCholmod: the factorisation fails for another reason than definiteness, the solution is null *)
Lemma lc_null : runs (lc_exec (fails CSolve SOther)) [LcInit; LcSolve false] 0 constructed = UBnull.
Proof. vm_compute. reflexivity. Qed.
(* LinearSolverQr: each solve forgets the workspace, a solve that fails forgets the intermediate result *)
Lemma lq_workspace : exists w w', runs (lq_exec good_lib) [LqInit; LqSolve; LqSolve; LqSolve] 0 constructed = Ret 0 w /\ lq_destroy w = Ret tt w' /\ map snd (live w') = [KWork; KWork].
Proof. do 2 eexists. split; [vm_compute; reflexivity|]. split; [vm_compute; reflexivity|]. vm_compute. reflexivity. Qed.
Definition quiet_fail : call -> nat -> ans := fun c _ => if call_eqb c CQrSolve then mkAns true false SOther false true else mkAns false true SOk false true.
Lemma lq_result : exists w w', runs (lq_exec quiet_fail) [LqInit; LqSolve] 0 constructed = Ret 0 w /\ lq_destroy w = Ret tt w' /\ map snd (live w') = [KDense].
Proof. do 2 eexists. split; [vm_compute; reflexivity|]. split; [vm_compute; reflexivity|]. vm_compute. reflexivity. Qed.
Lemma quiet_promise : promise quiet_fail.
Proof. intros c n. unfold quiet_fail. destruct (call_eqb c CQrSolve); cbn; split; intros H; auto; try discriminate; exfalso; apply H; reflexivity. Qed.
(* a copy of a solver has the same pointers; both are destroyed *)
Definition copy_of (w heap : world) : world := mkWorld (live heap) (fresh heap) (status w) (work w) (tick w) (factor w) (rset w).
Lemma copy_dead : exists w w', runs (sc_exec good_lib) [ScInit; ScBuild; ScSolve] 0 constructed = Ret 0 w /\ sc_destroy w = Ret tt w' /\ sc_destroy (copy_of w w') = UBdead.
Proof. do 2 eexists. split; [vm_compute; reflexivity|]. split; [vm_compute; reflexivity|]. vm_compute. reflexivity. Qed.
Lemma quiet_lib : promise (fun _ _ => mkAns false true SOk false true) /\ (forall (c : call) (n : nat), an_work ((fun _ _ => mkAns false true SOk false true) c n) = false /\ an_stat ((fun (_ : call) (_ : nat) => mkAns false true SOk false true) c n) = SOk).
Proof. split; [|split; reflexivity]. intros c n. cbn. split; [discriminate|]. intros H. exfalso. apply H. reflexivity. Qed.
Lemma no_scaled_solve : forall verbose, In (SqSolve true verbose) [SqInit; SqBuild; SqSolve false true; SqGetR true] -> works (fails CNumeric SOther) CNumeric /\ gives (fails CNumeric SOther) CQrSolve.
Proof. intros verbose [H|[H|[H|[H|[]]]]]; discriminate. Qed.
Lemma qr_refuted :
  (exists orc w w', promise orc /\ runs (sq_exec orc) [SqInit; SqBuild; SqSolve true false] 0 constructed = Ret 1 w /\ sq_destroy w = Ret tt w' /\ map snd (live w') = [KDense; KSparse]) /\
  (exists orc w w', promise orc /\ runs (sq_exec orc) [SqInit; SqBuild; SqGetR true] 0 constructed = Ret 1 w /\ sq_destroy w = Ret tt w' /\ map snd (live w') = [KSparse]) /\
  (exists orc, promise orc /\ gives orc CTranspose /\ gives orc CAllocDense /\ runs (sq_exec orc) [SqInit; SqBuild; SqSolve true false] 0 constructed = UBnull).
Proof.
  split; [|split].
  - destruct scale_leaks as (w & w' & H). exists (fails CScale SOther), w, w'. split; [apply fails_promise; discriminate|exact H].
  - destruct getR_leaks as (w & w' & H). exists (fails CQr SOther), w, w'. split; [apply fails_promise; discriminate|exact H].
  - exists (fails CNumeric SOther). split; [apply fails_promise; discriminate|]. split; [intros n; reflexivity|]. split; [intros n; reflexivity|exact norm_null].
Qed.
Lemma lc_toy : exists w, runs (lc_exec (fails CFactorize SNotPosdef)) [LcInit; LcSolve true; LcInverse false; LcSolve false] 0 constructed = Ret 0 w /\ factor w = None /\ length (live w) = 1.
Proof. eexists. split; [vm_compute; reflexivity|]. split; vm_compute; reflexivity. Qed.
Lemma lq_refuted :
  (exists orc w w', promise orc /\ runs (lq_exec orc) [LqInit; LqSolve; LqSolve; LqSolve] 0 constructed = Ret 0 w /\ lq_destroy w = Ret tt w' /\ map snd (live w') = [KWork; KWork]) /\
  (exists orc w w', promise orc /\ runs (lq_exec orc) [LqInit; LqSolve] 0 constructed = Ret 0 w /\ lq_destroy w = Ret tt w' /\ map snd (live w') = [KDense]).
Proof.
  split.
  - destruct lq_workspace as (w & w' & H). exists good_lib, w, w'. split; [exact good_promise|exact H].
  - destruct lq_result as (w & w' & H). exists quiet_fail, w, w'. split; [exact quiet_promise|exact H].
Qed.
