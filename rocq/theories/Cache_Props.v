(** * C54: cached expressions are transparent

    Statement. A cache expression always returns the value and Jacobian the wrapped expression would return now, for every history of updates, reverts, setParameters, activations
    and evaluations, and under concurrent evaluation by several threads.
    pval and pjac (Cache_Spec) evaluate an expression as if it had no cache nodes. A run is any sequence of updates, reverts, parameter settings, changes of activity,
    creations of cache nodes, starts of evaluating threads and single steps of these threads; a thread at PDone r has returned r (None: an exception was thrown).
    Values: proved for every history in which no piecewise expression is cached and no design variable is changed by its set() (plain).
    Jacobians: proved if moreover a variable whose activity was changed after the first Jacobian evaluation is updated, reverted or set before the next one (disciplined).
    Without these conditions the statement is false (refuted below). *)
From Coq Require Import ZArith Arith List Bool.
From Verif Require Import Lib_Ring Cache_Model Cache_Spec Cache_Proofs3 Cache_Toy.
Import ListNotations.

Theorem C54_value_partial : forall (K : Type) (R : CRing K) (N : @nodes K) s p a ls w i e r,
  Forall (plain N) ls -> runs N (init N s p a) ls w -> nth_error (threads N w) i = Some (JobV N e, PDone r) -> r = option_map inl (pval N e (vals N w)).
Proof. exact (fun K R N => @value_ok K R N). Qed.
Print Assumptions C54_value_partial.

Theorem C54_jacobian_partial : forall (K : Type) (R : CRing K) (N : @nodes K) s p a ls w i e r,
  Forall (plain N) ls -> disciplined N false [] ls -> runs N (init N s p a) ls w -> nth_error (threads N w) i = Some (JobJ N e, PDone r) ->
  r = option_map inr (pjac N e (vals N w) (active N w)).
Proof. exact (fun K R N => @jacobian_ok K R N). Qed.
Print Assumptions C54_jacobian_partial.

(* two values and a Jacobian of nested caches by three interleaved threads, after an update and a change of activity; all from valid caches at the end *)
Example C54_case : exists ls w, Forall (plain ZN) ls /\ disciplined ZN false [] ls /\ runs ZN w0 ls w /\
  show w = [inl (Some (inl 175%Z)); inl (Some (inl 25%Z)); inl (Some (inr (70%Z, 0%Z)))] /\ flag ZN w (KJ, 1) = true.
Proof. exact hist1_runs. Qed.
Example C54_case_exception : exists ls w, Forall (plain ZN) ls /\ runs ZN w0 ls w /\ show w = [inl None; inl None] /\ mutex ZN w (KV, 0) = None.
Proof. exact hist2_runs. Qed.

(** For all histories, also the ones excluded above: a cached datum is written by the holder of its mutex only, while the datum is marked invalid, and read only when it is valid and complete.
    Hence no two threads are about to access the same datum, one of them writing, and no thread ever reads an incomplete datum. *)
Theorem C54_contents : forall (K : Type) (R : CRing K) (N : @nodes K) s p a ls w i q x,
  runs N (init N s p a) ls w -> nth_error (threads N w) i = Some (q, x) ->
  x <> PBad /\ (forall c, writes x c -> mutex N w c = Some i /\ flag N w c = false) /\ (forall c, reads x c -> flag N w c = true /\ cont N w c <> None).
Proof. exact (fun K R N => @contents_ok K R N). Qed.
Print Assumptions C54_contents.

Theorem C54_no_content_race : forall (K : Type) (R : CRing K) (N : @nodes K) s p a ls w i j q q' x x' c,
  runs N (init N s p a) ls w -> nth_error (threads N w) i = Some (q, x) -> nth_error (threads N w) j = Some (q', x') -> i <> j -> writes x c -> ~ writes x' c /\ ~ reads x' c.
Proof. exact (fun K R N => @no_race K R N). Qed.
Print Assumptions C54_no_content_race.

Example C54_case_writing : exists ls w q x, runs ZN w0 ls w /\ nth_error (threads ZN w) 0 = Some (q, x) /\ writes x (KV, 0).
Proof. exact w4_writes. Qed.
Example C54_case_reading : exists ls w q x, runs ZN w0 ls w /\ nth_error (threads ZN w) 0 = Some (q, x) /\ reads x (KV, 0).
Proof. exact w4_reads. Qed.

(** The flags themselves are ordinary bools: one thread reads a flag without its mutex while another one writes it, a data race in C++. *)
Theorem C54_flag_race_refuted : ~ (forall (K : Type) (R : CRing K) (N : @nodes K) s p a ls w i j q q' c k k',
  runs N (init N s p a) ls w -> nth_error (threads N w) i = Some (q, PSet c k) -> nth_error (threads N w) j = Some (q', PFlag c k') -> i <> j -> mutex N w c = Some j).
Proof. exact (fun H => match flag_race with ex_intro _ ls (ex_intro _ w (ex_intro _ c (ex_intro _ q (ex_intro _ q' (ex_intro _ k (ex_intro _ k' (conj A (conj B (conj C D)))))))))  => D (H Z _ ZN _ _ _ ls w 0 1 q q' c k k' A B C (O_S 0)) end). Qed.
Print Assumptions C54_flag_race_refuted.

(** Evaluation ends: while a thread is unfinished some thread can move (no deadlock), and there is no endless sequence of thread steps. *)
Theorem C54_no_deadlock : forall (K : Type) (R : CRing K) (N : @nodes K) s p a ls w,
  runs N (init N s p a) ls w -> quiet N w = false -> exists w', moves N w' w.
Proof. exact (fun K R N => @progress K R N). Qed.
Print Assumptions C54_no_deadlock.

Theorem C54_terminates : forall (K : Type) (R : CRing K) (N : @nodes K), well_founded (moves N).
Proof. exact (fun K R N => @moves_wf K R N). Qed.
Print Assumptions C54_terminates.

Theorem C54_finishes : forall (K : Type) (R : CRing K) (N : @nodes K) s p a ls w,
  runs N (init N s p a) ls w -> exists ls' w', (forall l, In l ls' -> exists i, l = LThread N i) /\ runs N w ls' w' /\ quiet N w' = true.
Proof. exact (fun K R N => @finishes K R N). Qed.
Print Assumptions C54_finishes.

(* one thread has the mutex, the other one waits for it *)
Example C54_case_waiting : exists ls w, runs ZN w0 ls w /\ show w = [inr 1; inr 2] /\ mutex ZN w (KV, 0) = Some 0 /\ step ZN w (LThread ZN 1) = None /\ quiet ZN w = false.
Proof. exact hist3_runs. Qed.

(** ** Where the statement is false *)
(* DesignVariable::setActive does not invalidate the caches: a cached Jacobian keeps the blocks of the variables that were active when it was computed *)
Theorem C54_activity_refuted : ~ (forall (K : Type) (R : CRing K) (N : @nodes K) s p a ls w i e r,
  Forall (plain N) ls -> runs N (init N s p a) ls w -> nth_error (threads N w) i = Some (JobJ N e, PDone r) -> r = option_map inr (pjac N e (vals N w) (active N w))).
Proof. exact (fun H => match activity_stale with ex_intro _ ls (ex_intro _ w (ex_intro _ e (ex_intro _ r (conj A (conj B (conj C D)))))) => D (H Z _ ZN _ _ _ ls w 0 e r A B C) end). Qed.
Print Assumptions C54_activity_refuted.

(* a piecewise expression reports the variables of its current branch only; the cache is not registered with those of the other one *)
Theorem C54_piecewise_refuted : ~ (forall (K : Type) (R : CRing K) (N : @nodes K) s p a ls w i e r,
  Forall (fun l => match l with LSet _ _ _ => False | _ => True end) ls -> runs N (init N s p a) ls w -> nth_error (threads N w) i = Some (JobV N e, PDone r) -> r = option_map inl (pval N e (vals N w))).
Proof. exact (fun H => match piecewise_stale with ex_intro _ ls (ex_intro _ w (ex_intro _ e (ex_intro _ r (conj A (conj B (conj C D)))))) => D (H Z _ ZN _ _ _ ls w 0 e r A B C) end). Qed.
Print Assumptions C54_piecewise_refuted.

(* the set() members of the points and rotations do not invalidate the caches *)
Theorem C54_set_refuted : ~ (forall (K : Type) (R : CRing K) (N : @nodes K) s p a ls w i e r,
  Forall (fun l => match l with LCache _ e => no_if N e | _ => True end) ls -> runs N (init N s p a) ls w -> nth_error (threads N w) i = Some (JobV N e, PDone r) -> r = option_map inl (pval N e (vals N w))).
Proof. exact (fun H => match set_stale with ex_intro _ ls (ex_intro _ w (ex_intro _ e (ex_intro _ r (conj A (conj B (conj C D)))))) => D (H Z _ ZN _ _ _ ls w 0 e r A B C) end). Qed.
Print Assumptions C54_set_refuted.
