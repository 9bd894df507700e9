(** * Model of the threaded range processing

    aslam_backend/src/util/ThreadedRangeProcessor.cpp (runThreadedJob),
    include/aslam/backend/util/ThreadedRangeProcessor.hpp (runThreadedFunction),
    src/LinearSystemSolver.cpp (setupThreadedJob, evaluateErrors, evaluateError),
    include/aslam/backend/implementation/CompressedColumnJacobianTransposeBuilder.hpp
    (setupThreadedJob, evaluateJacobians),
    src/util/ProblemManager.cpp (computeGradient, evaluateError, sumErrorTerms, evaluateGradients). *)
From Coq Require Import Arith Lia List ZArith Bool.
From Verif Require Import Lib_Ring Lib_Res.
Import ListNotations.

(** ** Sub-range computation.  size_t values are integers in [0, 2^64), int is 32 bits. *)
(* in the model only: the range of int *)
Definition i32max : Z := 2147483647.
(* in the model only: the range of unsigned int *)
Definition two32 : Z := 4294967296.
(* in the model only: the range of size_t *)
Definition two64 : Z := 18446744073709551616.
(** static_cast<int>(size_t) and size_t -> int: keeps the low 32 bits (implementation defined) *)
(* in the model only: a conversion, as at ThreadedRangeProcessor.cpp L28-32 *)
Definition wrap32 (z : Z) : Z := let m := (z mod two32)%Z in if (m <=? i32max)%Z then m else (m - two32)%Z.
(** int -> size_t *)
(* in the model only: a conversion *)
Definition to_size (z : Z) : Z := (z mod two64)%Z.
(** int addition: overflow is undefined behaviour *)
(* in the model only: int operator+ *)
Definition int_add (a b : Z) : res Z :=
  if ((- i32max - 1 <=? a + b) && (a + b <=? i32max))%Z then Ok (a + b)%Z else UB.

(** indices[i+1] = indices[i] + nJPerThread, ThreadedRangeProcessor.cpp L29-30 (and
    LinearSystemSolver.cpp L39-40, CompressedColumnJacobianTransposeBuilder.hpp L69-70) *)
Fixpoint cumulative (nJ cur : Z) (n : nat) : res (list Z) :=
  match n with
  | O => Ok [cur]
  | S m => do nx <- int_add cur nJ; do t <- cumulative nJ nx m; Ok (cur :: t)
  end.

(** a job: its index and the sub-range [start, end) it is called with *)
(* in the model only: the arguments of a std::async call, ThreadedRangeProcessor.cpp L36-41 *)
Definition job := (nat * Z * Z)%type.
(* the loop at ThreadedRangeProcessor.cpp L36-41 *)
Fixpoint mk_jobs (i : nat) (idx : list Z) : list job :=
  match idx with
  | a :: ((b :: _) as t) => (i, to_size a, to_size b) :: mk_jobs (S i) t
  | _ => []
  end.

(** L24-36: the sub-ranges for more than one thread; [range / n] with n = 0 is undefined behaviour *)
Definition split_range (range nThreads : Z) : res (list job) :=
  let n := Z.min nThreads range in
  if (n =? 0)%Z then UB else
  let nJ := Z.max 1 (wrap32 (range / n)) in
  do idx <- cumulative nJ 0 (Z.to_nat n);
  Ok (mk_jobs 0 (removelast idx ++ [wrap32 range])).

(** runThreadedJob, ThreadedRangeProcessor.cpp L15-46: the calls job(i, a, b) it makes *)
Definition runThreadedJob_ranges (range nThreads : Z) : res (list job) :=
  if (nThreads =? 0)%Z then Throw
  else if (range =? 0)%Z then Ok []
  else if (nThreads =? 1)%Z then Ok [(0, 0%Z, range)]
  else split_range range nThreads.

(** LinearSystemSolver::setupThreadedJob L30-57 and the builder's setupThreadedJob L60-86 *)
Definition setupThreadedJob_ranges (size nThreads : Z) : res (list job) :=
  if (nThreads <=? 1)%Z then Ok [(0, 0%Z, size)]
  else split_range size nThreads.

(** ** Concurrent execution, L38-45.

    Every std::async(std::launch::async, ...) starts a thread; the workers run concurrently with
    each other and with the main thread; get() waits for one worker and rethrows its exception;
    when get() throws, the destructors of the remaining futures wait for their workers.
    One worker step is the processing of one index (that is the granularity at which the shared
    result vectors are written; different workers write different elements).
    Failure of std::async itself (no thread available) is not modelled. *)
Section Conc.
Context {A V E : Type}.
(** processing index k with accumulator acc: new accumulator, or an exception *)
Variable body : A -> nat -> A + E.
(** the value written to the cell that belongs to index k (_e.segment(...), Jacobian columns) *)
Variable wr : nat -> V.

(* in the model only: a worker: not started, running, ended, ended by an exception *)
Inductive wstate := WNot | WRun (next stop : nat) | WEnd | WExn (e : E).
(* in the model only: the main thread: starting worker i, in get() of worker i, waiting after an exception, returned, threw *)
Inductive mstate := MSpawn (i : nat) | MGet (i : nat) | MJoin (e : E) (i : nat) | MRet | MThrew (e : E).
(* in the model only: threads and memory *)
Record cfg := mkCfg { c_main : mstate; c_w : list wstate; c_out : list A; c_cells : nat -> V }.

Variable ranges : list (nat * nat).

(* in the model only: memory *)
Definition set_cell (c : nat -> V) (k : nat) (v : V) : nat -> V := fun k' => if k' =? k then v else c k'.

(* ThreadedRangeProcessor.cpp L36-44, one step *)
Inductive pstep : cfg -> cfg -> Prop :=
| ps_spawn : forall i w o c a b, nth_error ranges i = Some (a, b) ->
    pstep (mkCfg (MSpawn i) w o c) (mkCfg (MSpawn (S i)) (upd w i (WRun a b)) o c)
| ps_spawned : forall w o c,
    pstep (mkCfg (MSpawn (length ranges)) w o c) (mkCfg (MGet 0) w o c)
| ps_work : forall m w o c i k b acc acc', nth_error w i = Some (WRun k b) -> k < b ->
    nth_error o i = Some acc -> body acc k = inl acc' ->
    pstep (mkCfg m w o c) (mkCfg m (upd w i (WRun (S k) b)) (upd o i acc') (set_cell c k (wr k)))
| ps_throw : forall m w o c i k b acc e, nth_error w i = Some (WRun k b) -> k < b ->
    nth_error o i = Some acc -> body acc k = inr e ->
    pstep (mkCfg m w o c) (mkCfg m (upd w i (WExn e)) o c)
| ps_finish : forall m w o c i k b, nth_error w i = Some (WRun k b) -> b <= k ->
    pstep (mkCfg m w o c) (mkCfg m (upd w i WEnd) o c)
| ps_get : forall w o c i, nth_error w i = Some WEnd ->
    pstep (mkCfg (MGet i) w o c) (mkCfg (MGet (S i)) w o c)
| ps_get_exn : forall w o c i e, nth_error w i = Some (WExn e) ->
    pstep (mkCfg (MGet i) w o c) (mkCfg (MJoin e (S i)) w o c)
| ps_return : forall w o c,
    pstep (mkCfg (MGet (length ranges)) w o c) (mkCfg MRet w o c)
| ps_join : forall w o c i e s, nth_error w i = Some s -> (s = WEnd \/ exists e', s = WExn e') ->
    pstep (mkCfg (MJoin e i) w o c) (mkCfg (MJoin e (S i)) w o c)
| ps_rethrow : forall w o c e,
    pstep (mkCfg (MJoin e (length ranges)) w o c) (mkCfg (MThrew e) w o c).

(* ThreadedRangeProcessor.cpp L36-44, any number of steps *)
Inductive psteps : cfg -> cfg -> Prop :=
| pss_refl : forall c, psteps c c
| pss_step : forall c1 c2 c3, pstep c1 c2 -> psteps c2 c3 -> psteps c1 c3.

(** [out] is the vector of output variables (out.at(i) for job i), at least one per job *)
(* ThreadedRangeProcessor.cpp L36 before the first thread is started *)
Definition start (out : list A) (cells : nat -> V) : cfg :=
  mkCfg (MSpawn 0) (map (fun _ => WNot) ranges) out cells.
End Conc.

(* in the model only: conversion of the ranges *)
Definition nat_ranges (js : list job) : list (nat * nat) :=
  map (fun j => (Z.to_nat (snd (fst j)), Z.to_nat (snd j))) js.

(** ** Complete calls *)
Section Calls.
Context {A V E : Type}.
Variable body : A -> nat -> A + E.
Variable wr : nat -> V.

(** a job working through [cnt] indices from [k] on one thread *)
(* in the model only: the loop of a job *)
Fixpoint seqrun (cnt k : nat) (acc : A) : A * option E :=
  match cnt with
  | O => (acc, None)
  | S c => match body acc k with inl acc' => seqrun c (S k) acc' | inr e => (acc, Some e) end
  end.
(* in the model only: what the loop of a job writes *)
Definition seqcells (range : nat) (cells : nat -> V) : nat -> V :=
  fold_left (fun c k => set_cell c k (wr k)) (seq 0 range) cells.

(* in the model only: outcomes *)
Inductive call_result :=
| Returned (out : list A) (cells : nat -> V)   (* normal return *)
| Threw (e : E)                                (* exception of a job *)
| Refused                                      (* the assertion nThreads > 0 failed *)
| Undefined.                                   (* undefined behaviour *)

(** the job list is run by threads *)
(* ThreadedRangeProcessor.cpp L24-44 *)
Inductive run_threads (js : list job) (out : list A) (cells : nat -> V) : call_result -> Prop :=
| rt_ret : forall c, psteps body wr (nat_ranges js) (start (nat_ranges js) out cells) c -> c_main c = MRet ->
    run_threads js out cells (Returned (c_out c) (c_cells c))
| rt_throw : forall c e, psteps body wr (nat_ranges js) (start (nat_ranges js) out cells) c -> c_main c = MThrew e ->
    run_threads js out cells (Threw e).

(** a single call job(0, 0, range) on the caller's thread with the output variable out[0] *)
(* ThreadedRangeProcessor.cpp L21-22 *)
Definition run_single (range : nat) (out : list A) (cells : nat -> V) : call_result :=
  match out with
  | [] => Undefined
  | acc :: rest => match seqrun range 0 acc with
                   | (acc', None) => Returned (acc' :: rest) (seqcells range cells)
                   | (_, Some e) => Threw e end
  end.

(** runThreadedFunction(function, range, out), ThreadedRangeProcessor.hpp L42-45:
    runThreadedJob with nThreads = out.size() and out.at(i) as the output of job i *)
Inductive runThreadedFunction (range : nat) (out : list A) (cells : nat -> V) : call_result -> Prop :=
| rtf_zero : length out = 0 -> runThreadedFunction range out cells Refused
| rtf_empty : 0 < length out -> range = 0 -> runThreadedFunction range out cells (Returned out cells)
| rtf_one : length out = 1 -> 0 < range -> runThreadedFunction range out cells (run_single range out cells)
| rtf_many : forall js r, 1 < length out -> 0 < range ->
    runThreadedJob_ranges (Z.of_nat range) (Z.of_nat (length out)) = Ok js ->
    run_threads js out cells r -> runThreadedFunction range out cells r.

(** setupThreadedJob (LinearSystemSolver.cpp L30-57; builder L60-86) with thread-local results *)
Inductive setupThreadedJob (size nThreads : nat) (out : list A) (cells : nat -> V) : call_result -> Prop :=
| stj_one : nThreads <= 1 -> setupThreadedJob size nThreads out cells (run_single size out cells)
| stj_many : forall js r, 1 < nThreads ->
    setupThreadedJob_ranges (Z.of_nat size) (Z.of_nat nThreads) = Ok js ->
    run_threads js out cells r -> setupThreadedJob size nThreads out cells r
| stj_ub : 1 < nThreads -> setupThreadedJob_ranges (Z.of_nat size) (Z.of_nat nThreads) = UB ->
    setupThreadedJob size nThreads out cells Undefined.
End Calls.
Arguments Refused {A V E}. Arguments Undefined {A V E}.

(** ** ProblemManager users *)
Section PM.
Context {K : Type} {R : CRing K}.
(** sumErrorTerms, ProblemManager.cpp L251-259: err += term i; non-squared terms come first.
    evaluateError() of a term may throw. *)
Variable E : Type.
Variables (nNS : nat) (errNS errS : nat -> K + E).
(* same code: ProblemManager.cpp L251-259 *)
Definition sum_body (acc : K) (i : nat) : K + E :=
  match (if i <? nNS then errNS i else errS (i - nNS)) with
  | inl v => inl (kadd acc v) | inr e => inr e end.

(** evaluateGradients, L269-298: the two loops with the shared counter; gradNS/gradS are the
    row vectors that addGradientForErrorTerm adds to J (modelled in Gradient_Model.v) *)
Variables (gradNS gradS : nat -> vec K).
(* same code: L269-298 *)
Fixpoint grad_loop1 (fuel cnt endIdx : nat) (J : vec K) : nat * vec K :=
  match fuel with
  | O => (cnt, J)
  | S f => if (cnt <? endIdx) && (cnt <? nNS) then grad_loop1 f (S cnt) endIdx (vadd J (gradNS cnt)) else (cnt, J)
  end.
(* same code: L269-298 *)
Fixpoint grad_loop2 (fuel cnt endIdx : nat) (J : vec K) : vec K :=
  match fuel with
  | O => J
  | S f => if cnt <? endIdx then grad_loop2 f (S cnt) endIdx (vadd J (gradS (cnt - nNS))) else J
  end.
(* same code: L269-298 *)
Definition evaluateGradients (startIdx endIdx : nat) (J : vec K) : vec K :=
  let (cnt, J1) := grad_loop1 (endIdx - startIdx) startIdx endIdx J in
  grad_loop2 (endIdx - cnt) cnt endIdx J1.
(** one index of evaluateGradients as a worker step *)
(* same code: L269-298 *)
Definition grad_body (J : vec K) (i : nat) : vec K + E :=
  inl (vadd J (if i <? nNS then gradNS i else gradS (i - nNS))).

(** evaluateErrors, LinearSystemSolver.cpp L17-28: the thread-local sum *)
Variable errAll : nat -> K + E.
(* same code: LinearSystemSolver.cpp L17-28 *)
Definition lss_body (acc : K) (i : nat) : K + E :=
  match errAll i with inl v => inl (kadd acc v) | inr e => inr e end.

(** the results are added up afterwards: evaluateError L178-182, computeGradient L128-130,
    LinearSystemSolver::evaluateError L68-71 *)
Definition gather (errors : list K) : K := fold_left (fun e x => kadd e x) errors k0.
(* same code: L178-182, L128-130, L68-71 *)
Definition gather_grad (gs : list (vec K)) : vec K :=
  match gs with [] => (fun _ => k0) | g :: t => fold_left (fun a x => vadd a x) t g end.

(** ProblemManager::evaluateError(nThreads) L172-184 *)
Inductive pm_evaluateError (numTerms nThreads : nat) : @call_result K unit E -> option K -> Prop :=
| pme_ret : forall out c, runThreadedFunction sum_body (fun _ => tt) numTerms (repeat k0 nThreads) (fun _ => tt) (Returned out c) ->
    pm_evaluateError numTerms nThreads (Returned out c) (Some (gather out))
| pme_other : forall r, runThreadedFunction sum_body (fun _ => tt) numTerms (repeat k0 nThreads) (fun _ => tt) r ->
    (forall out c, r <> Returned out c) -> pm_evaluateError numTerms nThreads r None.
(** ProblemManager::computeGradient L120-133 without the final scaling *)
Inductive pm_computeGradient (numTerms nThreads : nat) : vec K -> Prop :=
| pmg_ret : forall out c, runThreadedFunction grad_body (fun _ => tt) numTerms (repeat (fun _ => k0) nThreads) (fun _ => tt) (Returned out c) ->
    pm_computeGradient numTerms nThreads (gather_grad out).
(** LinearSystemSolver::evaluateError(nThreads, ..) LinearSystemSolver.cpp L60-72: at least one
    thread-local error; cell i of the memory is the segment of _e that belongs to term i (segments
    of different terms do not overlap because initMatrixStructure L97-118 assigns them consecutively),
    [wr i] is the value -e written there (L25-26). *)
Variable V : Type.
Variable wr : nat -> V.
(* same code: LinearSystemSolver.cpp L60-72, L97-118, L25-26 *)
Inductive lss_evaluateError (size nThreads : nat) (cells : nat -> V) : @call_result K V E -> option K -> Prop :=
| lsse_ret : forall out c, setupThreadedJob lss_body wr size (Nat.max 1 nThreads) (repeat k0 (Nat.max 1 nThreads)) cells (Returned out c) ->
    lss_evaluateError size nThreads cells (Returned out c) (Some (gather out))
| lsse_other : forall r, setupThreadedJob lss_body wr size (Nat.max 1 nThreads) (repeat k0 (Nat.max 1 nThreads)) cells r ->
    (forall out c, r <> Returned out c) -> lss_evaluateError size nThreads cells r None.
End PM.
