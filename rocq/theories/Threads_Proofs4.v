(** * Threads: the statements used in Threads_Props.v *)
From Coq Require Import Arith Lia List ZArith Bool.
From Verif Require Import Lib_Ring Lib_Res Threads_Model Threads_Proofs Threads_Proofs2 Threads_Proofs3.
Import ListNotations.

Lemma c07_ranges : forall range nThreads,
  (0 <= range <= 2147483647)%Z -> (0 < nThreads)%Z ->
  exists js, runThreadedJob_ranges range nThreads = Ok js /\
    Z.of_nat (length js) = Z.min nThreads range /\ covers range js.
Proof.
  intros range nThreads Hr Ht. destruct (runThreadedJob_covers range nThreads Hr Ht) as (js & H1 & H2 & H3).
  exists js. auto.
Qed.
Lemma c07_corner : forall range nThreads,
  runThreadedJob_ranges range 0 = Throw /\ ((nThreads <> 0)%Z -> runThreadedJob_ranges 0 nThreads = Ok []).
Proof.
  intros. split; [reflexivity|]. intros H. unfold runThreadedJob_ranges. destruct (Z.eqb_spec nThreads 0); [lia|reflexivity].
Qed.
Lemma c07_beyond : exists range nThreads js, runThreadedJob_ranges range nThreads = Ok js /\ (0 < range)%Z /\
    ~ (forall i a b, In (i, a, b) js -> (b <= range)%Z).
Proof.
  exists 2147483648%Z, 3%Z. eexists. split; [vm_compute; reflexivity|]. split; [lia|].
  intros H. specialize (H 2 1431655764%Z 18446744071562067968%Z ltac:(cbn; auto)). lia.
Qed.
Lemma c10_ranges : forall size nThreads,
  (0 < size <= 2147483647)%Z -> (0 <= nThreads)%Z ->
  exists js, setupThreadedJob_ranges size nThreads = Ok js /\
    Z.of_nat (length js) = Z.min (Z.max 1 nThreads) size /\ covers size js.
Proof.
  intros range nThreads Hr Ht. destruct (setupThreadedJob_covers range nThreads Hr Ht) as (js & H1 & H2 & H3).
  exists js. auto.
Qed.
Lemma c10_empty : forall nThreads,
  setupThreadedJob_ranges 0 nThreads = (if (nThreads <=? 1)%Z then Ok [(0, 0%Z, 0%Z)] else UB) /\
  forall (A V E : Type) (body : A -> nat -> A + E) (wr : nat -> V) n out cells r, 1 < n ->
    setupThreadedJob body wr 0 n out cells r -> r = Undefined.
Proof.
  assert (H : forall nThreads, setupThreadedJob_ranges 0 nThreads = (if (nThreads <=? 1)%Z then Ok [(0, 0%Z, 0%Z)] else UB)).
  { intros n. unfold setupThreadedJob_ranges. destruct (Z.leb_spec n 1); auto. unfold split_range.
    replace (Z.min n 0) with 0%Z by lia. reflexivity. }
  intros nThreads. split; auto. intros A V E body wr n out cells r Hn X.
  inversion X as [X1 X2|js r' X1 X2 X3 X4|]; subst; auto; [lia|].
  cbn [Z.of_nat] in X2. rewrite H in X2. destruct (Z.leb_spec (Z.of_nat n) 1); [lia|discriminate].
Qed.

Lemma c09_lowest : forall (A V E : Type) (body : A -> nat -> A + E) (wr : nat -> V)
    range nThreads js out cells,
  (0 <= range <= 2147483647)%Z -> (0 < nThreads)%Z ->
  runThreadedJob_ranges range nThreads = Ok js -> length js <= length out ->
  let alone i := match nth_error (nat_ranges js) i, nth_error out i with
                 | Some (a, b), Some acc => Some (seqrun body (b - a) a acc) | _, _ => None end in
  (forall e, run_threads body wr js out cells (Threw e) <->
     exists p acc, p < length js /\ alone p = Some (acc, Some e) /\
       (forall j, j < p -> exists accj, alone j = Some (accj, None))) /\
  ((exists o c, run_threads body wr js out cells (Returned o c)) <->
     forall i, i < length js -> exists acc, alone i = Some (acc, None)).
Proof.
  intros A V E body wr range nThreads js out cells Hr Ht Hj Hl.
  destruct (runThreadedJob_covers range nThreads Hr Ht) as (js' & H1 & H2 & H3).
  rewrite H1 in Hj. injection Hj as ->.
  exact (run_threads_iff body wr range js out cells H2 Hl).
Qed.

Lemma c09_ends : forall (A V E : Type) (body : A -> nat -> A + E) (wr : nat -> V)
    range nThreads js out cells,
  (0 <= range <= 2147483647)%Z -> (0 < nThreads)%Z ->
  runThreadedJob_ranges range nThreads = Ok js -> length js <= length out ->
  let c0 := start (nat_ranges js) out cells in
  Acc (fun y x => pstep body wr (nat_ranges js) x y) c0 /\
  (forall c, psteps body wr (nat_ranges js) c0 c ->
     (forall c', ~ pstep body wr (nat_ranges js) c c') -> c_main c = MRet \/ exists e, c_main c = MThrew e) /\
  (forall c, psteps body wr (nat_ranges js) c0 c -> (c_main c = MRet \/ exists e, c_main c = MThrew e) ->
     forall i s, nth_error (c_w c) i = Some s -> s = WEnd \/ exists e', s = WExn e').
Proof.
  intros A V E body wr range nThreads js out cells Hr Ht Hj Hl.
  destruct (runThreadedJob_covers range nThreads Hr Ht) as (js' & H1 & H2 & H3).
  rewrite H1 in Hj. injection Hj as ->. cbn zeta.
  assert (L' : length (nat_ranges js) <= length out) by (rewrite nat_ranges_length; auto).
  assert (O' : forall a b, In (a, b) (nat_ranges js) -> a <= b) by
    (intros a b H; pose proof (covers_ranges range js H2 a b H); lia).
  assert (D' := covers_disjoint range js H2).
  split; [exact (run_threads_wf body wr range js out cells H2 Hl)|]. split.
  - intros c Hc Hn. destruct (progress body wr (nat_ranges js) out cells L' c) as [F|(c' & S)].
    + eapply steps_inv; eauto. apply start_inv; auto.
    + exact F.
    + exfalso. eapply Hn; eauto.
  - exact (run_threads_all_ended body wr range js out cells H2 Hl).
Qed.

Lemma c08_case : exists r, pm_evaluateError (K := Z) unit 2 (fun i => inl (Z.of_nat i)) (fun i => inl (10 * Z.of_nat i)%Z) 5 3 r (Some 31%Z).
Proof.
  destruct (pm_evaluateError_ok (K := Z) unit 2 (fun i => inl (Z.of_nat i)) (fun i => inl (10 * Z.of_nat i)%Z) 5 3) as ((r & v & H) & S);
    [unfold i32max; lia|lia|].
  exists r. pose proof (S r v H) as Hv. destruct v as [s|].
  - destruct Hv as (f & Hf & ->).
    assert (E : ksum 5 f = 31%Z).
    { assert (F : forall i, i < 5 -> f i = nth i [0;1;0;10;20]%Z 0%Z).
      { intros i Hi. specialize (Hf i Hi). unfold pm_term in Hf.
        do 5 (destruct i as [|i]; [cbn in Hf; injection Hf as <-; reflexivity|]). lia. }
      cbn. rewrite !F by lia. reflexivity. }
    rewrite E in H. exact H.
  - destruct Hv as (e & k & _ & _ & X & _). unfold pm_term in X. destruct (k <? 2); discriminate.
Qed.

Lemma c09_case : forall body : Z -> nat -> Z + nat,
  body = (fun acc k => if k =? 5 then inr 50 else if k =? 8 then inr 80 else inl (acc + Z.of_nat k)%Z) ->
  exists js, runThreadedJob_ranges 10 4 = Ok js /\ length js = 4 /\
  run_threads body (fun k => k) js [0;0;0;0]%Z (fun _ => 0) (Threw 50) /\
  ~ run_threads body (fun k => k) js [0;0;0;0]%Z (fun _ => 0) (Threw 80).
Proof.
  intros body ->. eexists. split; [vm_compute; reflexivity|]. split; [reflexivity|].
  match goal with |- run_threads ?b ?w ?js ?o ?c _ /\ _ => 
    destruct (c09_lowest Z nat nat b w 10 4 js o c ltac:(lia) ltac:(lia) ltac:(vm_compute; reflexivity) ltac:(cbn; lia)) as [H _] end.
  split.
  - apply H. exists 2, 4%Z. split; [cbn; lia|]. split; [reflexivity|].
    intros j Hj. do 2 (destruct j as [|j]; [eexists; reflexivity|]). lia.
  - intros X. apply H in X. destruct X as (p & acc & P1 & P2 & P3). cbn [length] in P1.
    destruct p as [|[|[|[|p]]]]; try (vm_compute in P2; discriminate); [|lia].
    destruct (P3 2 ltac:(lia)) as (x & X). vm_compute in X. discriminate.
Qed.
