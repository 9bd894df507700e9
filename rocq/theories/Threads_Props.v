(** * C07-C10: threaded evaluation *)
From Coq Require Import Arith Lia List ZArith Bool.
From Verif Require Import Lib_Ring Lib_Res Threads_Model Threads_Proofs Threads_Proofs2 Threads_Proofs3 Threads_Proofs4.
Import ListNotations.

(** ** C07 *)
(** Job indices are 0,1,..; every range is non-empty and in bounds; every index lies in exactly one
    range; the ranges listed in job order are 0,1,..,range-1. There are min(nThreads, range) jobs. *)
Theorem C07_ranges_cover_once : forall range nThreads,
  (0 <= range <= 2147483647)%Z -> (0 < nThreads)%Z ->
  exists js, runThreadedJob_ranges range nThreads = Ok js /\
    Z.of_nat (length js) = Z.min nThreads range /\
    map (fun j => fst (fst j)) js = seq 0 (length js) /\
    (forall i a b, In (i, a, b) js -> (0 <= a < b)%Z /\ (b <= range)%Z) /\
    (forall k, (0 <= k < range)%Z ->
       length (filter (fun j => (snd (fst j) <=? k)%Z && (k <? snd j)%Z) js) = 1) /\
    flat_map (fun p => seq (fst p) (snd p - fst p)) (nat_ranges js) = seq 0 (Z.to_nat range).
Proof. exact c07_ranges. Qed.
Print Assumptions C07_ranges_cover_once.
Theorem C07_no_threads_refused_empty_range_no_job : forall range nThreads,
  runThreadedJob_ranges range 0 = Throw /\ ((nThreads <> 0)%Z -> runThreadedJob_ranges 0 nThreads = Ok []).
Proof. exact c07_corner. Qed.
Print Assumptions C07_no_threads_refused_empty_range_no_job.
Example C07_case : runThreadedJob_ranges 10 4 = Ok [(0, 0%Z, 2%Z); (1, 2%Z, 4%Z); (2, 4%Z, 6%Z); (3, 6%Z, 10%Z)] /\
  runThreadedJob_ranges 3 8 = Ok [(0, 0%Z, 1%Z); (1, 1%Z, 2%Z); (2, 2%Z, 3%Z)].
Proof. vm_compute. split; reflexivity. Qed.
(** the bound on the range is needed: one more index and the conversion to int loses it *)
Theorem C07_range_beyond_int_refuted :
  exists range nThreads js, runThreadedJob_ranges range nThreads = Ok js /\ (0 < range)%Z /\
    ~ (forall i a b, In (i, a, b) js -> (b <= range)%Z).
Proof. exact c07_beyond. Qed.
Print Assumptions C07_range_beyond_int_refuted.

(** ** C08 *)
(** ProblemManager::evaluateError: whatever the schedule and the thread count, the call ends, and it
    either returns the sum of all error terms or throws what the first throwing term throws. *)
Theorem C08_total_error : forall (K : Type) (R : CRing K) (E : Type) nNS (errNS errS : nat -> K + E) numTerms nThreads,
  (Z.of_nat numTerms <= 2147483647)%Z -> 0 < nThreads ->
  let term i := if i <? nNS then errNS i else errS (i - nNS) in
  (exists r v, pm_evaluateError E nNS errNS errS numTerms nThreads r v) /\
  (forall r v, pm_evaluateError E nNS errNS errS numTerms nThreads r v ->
    match v with
    | Some s => exists f, (forall i, i < numTerms -> term i = inl (f i)) /\ s = ksum numTerms f
    | None => exists e k, r = Threw e /\ k < numTerms /\ term k = inr e /\ forall i, i < k -> exists x, term i = inl x
    end).
Proof. exact (fun K R => @pm_evaluateError_ok K R). Qed.
Print Assumptions C08_total_error.
(** ProblemManager::computeGradient (before the final scaling): the sum of the gradients of all terms. *)
Theorem C08_gradient : forall (K : Type) (R : CRing K) (E : Type) nNS (gradNS gradS : nat -> vec K) numTerms nThreads,
  (Z.of_nat numTerms <= 2147483647)%Z -> 0 < nThreads ->
  (exists g, pm_computeGradient E nNS gradNS gradS numTerms nThreads g) /\
  (forall g, pm_computeGradient E nNS gradNS gradS numTerms nThreads g ->
    forall j, g j = ksum numTerms (fun i => (if i <? nNS then gradNS i else gradS (i - nNS)) j)).
Proof. exact (fun K R => @pm_computeGradient_ok K R). Qed.
Print Assumptions C08_gradient.
(** the two counting loops of evaluateGradients process startIdx..endIdx-1 one after the other *)
Theorem C08_gradient_job : forall (K : Type) (R : CRing K) nNS (gradNS gradS : nat -> vec K) startIdx endIdx J,
  startIdx <= endIdx ->
  evaluateGradients nNS gradNS gradS startIdx endIdx J =
  fold_left (fun J i => vadd J (if i <? nNS then gradNS i else gradS (i - nNS))) (seq startIdx (endIdx - startIdx)) J.
Proof. exact (fun K R => @evaluateGradients_seq K R). Qed.
Print Assumptions C08_gradient_job.
(** LinearSystemSolver::evaluateError: the sum of all terms, and every segment of _e has been written. *)
Theorem C08_linear_system_error : forall (K : Type) (R : CRing K) (E V : Type) (err : nat -> K + E) (wr cells : nat -> V) size nThreads,
  (0 < Z.of_nat size <= 2147483647)%Z ->
  (exists r v, lss_evaluateError E err V wr size nThreads cells r v) /\
  (forall r v, lss_evaluateError E err V wr size nThreads cells r v ->
    match v with
    | Some s => exists f out cells', (forall i, i < size -> err i = inl (f i)) /\ s = ksum size f /\
        r = Returned out cells' /\ (forall i, i < size -> cells' i = wr i) /\ (forall i, size <= i -> cells' i = cells i)
    | None => exists e k, r = Threw e /\ k < size /\ err k = inr e /\ forall i, i < k -> exists x, err i = inl x
    end).
Proof. exact (fun K R E V => @lss_evaluateError_ok K R E V). Qed.
Print Assumptions C08_linear_system_error.
Example C08_case : exists r, pm_evaluateError (K := Z) unit 2 (fun i => inl (Z.of_nat i)) (fun i => inl (10 * Z.of_nat i)%Z) 5 3 r (Some 31%Z).
Proof. exact c08_case. Qed.

(** ** C09 *)
(** [alone] is what job i does when it runs by itself on its output variable. Under every interleaving
    of main thread and workers: the call throws e iff job p throws e alone and no job before p throws;
    it returns normally iff no job throws; some end is always reached and every execution is finite;
    at the end no worker is still running. *)
Theorem C09_exception_of_lowest_job : forall (A V E : Type) (body : A -> nat -> A + E) (wr : nat -> V)
    range nThreads js out cells,
  (0 <= range <= 2147483647)%Z -> (0 < nThreads)%Z ->
  runThreadedJob_ranges range nThreads = Ok js -> length js <= length out ->
  let alone i := match nth_error (nat_ranges js) i, nth_error out i with
                 | Some (a, b), Some acc => Some (seqrun body (b - a) a acc) | _, _ => None end in
  (forall e, run_threads body wr js out cells (Threw e) <->
     exists p acc, p < length js /\ alone p = Some (acc, Some e) /\
       (forall j, j < p -> exists accj, alone j = Some (accj, None))) /\
  ((exists o c, run_threads body wr js out cells (Returned o c)) <->
     forall i, i < length js -> exists acc, alone i = Some (acc, None)).
Proof. exact (fun A V E => @c09_lowest A V E). Qed.
Print Assumptions C09_exception_of_lowest_job.
Theorem C09_ends_with_all_workers_ended : forall (A V E : Type) (body : A -> nat -> A + E) (wr : nat -> V)
    range nThreads js out cells,
  (0 <= range <= 2147483647)%Z -> (0 < nThreads)%Z ->
  runThreadedJob_ranges range nThreads = Ok js -> length js <= length out ->
  let c0 := start (nat_ranges js) out cells in
  (* every execution is finite *)
  Acc (fun y x => pstep body wr (nat_ranges js) x y) c0 /\
  (* an execution that cannot go on has returned or thrown *)
  (forall c, psteps body wr (nat_ranges js) c0 c ->
     (forall c', ~ pstep body wr (nat_ranges js) c c') -> c_main c = MRet \/ exists e, c_main c = MThrew e) /\
  (* and then no worker runs any more *)
  (forall c, psteps body wr (nat_ranges js) c0 c -> (c_main c = MRet \/ exists e, c_main c = MThrew e) ->
     forall i s, nth_error (c_w c) i = Some s -> s = WEnd \/ exists e', s = WExn e').
Proof. exact (fun A V E => @c09_ends A V E). Qed.
Print Assumptions C09_ends_with_all_workers_ended.
Definition ex_body (acc : Z) (k : nat) : Z + nat := if k =? 5 then inr 50 else if k =? 8 then inr 80 else inl (acc + Z.of_nat k)%Z.
Example C09_case : exists js, runThreadedJob_ranges 10 4 = Ok js /\ length js = 4 /\
  run_threads ex_body (fun k => k) js [0;0;0;0]%Z (fun _ => 0) (Threw 50) /\
  ~ run_threads ex_body (fun k => k) js [0;0;0;0]%Z (fun _ => 0) (Threw 80).
Proof. exact (c09_case ex_body eq_refl). Qed.

(** ** C10 *)
Theorem C10_ranges_cover_once_partial : forall size nThreads,
  (0 < size <= 2147483647)%Z -> (0 <= nThreads)%Z ->
  exists js, setupThreadedJob_ranges size nThreads = Ok js /\
    Z.of_nat (length js) = Z.min (Z.max 1 nThreads) size /\
    map (fun j => fst (fst j)) js = seq 0 (length js) /\
    (forall i a b, In (i, a, b) js -> (0 <= a < b)%Z /\ (b <= size)%Z) /\
    (forall k, (0 <= k < size)%Z ->
       length (filter (fun j => (snd (fst j) <=? k)%Z && (k <? snd j)%Z) js) = 1) /\
    flat_map (fun p => seq (fst p) (snd p - fst p)) (nat_ranges js) = seq 0 (Z.to_nat size).
Proof. exact c10_ranges. Qed.
Print Assumptions C10_ranges_cover_once_partial.
Example C10_case : setupThreadedJob_ranges 7 3 = Ok [(0, 0%Z, 2%Z); (1, 2%Z, 4%Z); (2, 4%Z, 7%Z)] /\
  setupThreadedJob_ranges 7 0 = Ok [(0, 0%Z, 7%Z)].
Proof. vm_compute. split; reflexivity. Qed.
(** with no error terms one thread does nothing, but two or more threads divide by zero *)
Theorem C10_no_error_terms_refuted : forall nThreads,
  setupThreadedJob_ranges 0 nThreads = (if (nThreads <=? 1)%Z then Ok [(0, 0%Z, 0%Z)] else UB) /\
  forall (A V E : Type) (body : A -> nat -> A + E) (wr : nat -> V) n out cells r, 1 < n ->
    setupThreadedJob body wr 0 n out cells r -> r = Undefined.
Proof. exact c10_empty. Qed.
Print Assumptions C10_no_error_terms_refuted.
