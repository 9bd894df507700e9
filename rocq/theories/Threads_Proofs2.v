(** * Property-level lemmas for threads *)
From Coq Require Import Arith Lia List ZArith Bool Ring.
From Verif Require Import Lib_Ring Lib_Res Threads_Model Threads_Proofs.
Import ListNotations.

Lemma nat_ranges_length : forall js, length (nat_ranges js) = length js.
Proof. intros. apply map_length. Qed.

Lemma covers_ranges : forall range js, covers range js ->
  (forall a b, In (a, b) (nat_ranges js) -> a < b /\ b <= Z.to_nat range).
Proof.
  intros range js (C1 & C2 & C3 & C4) a b Hin. apply in_map_iff in Hin.
  destruct Hin as ([[i x] y] & Hxy & Hin). cbn in Hxy. injection Hxy as <- <-.
  destruct (C2 i x y Hin). lia.
Qed.

Lemma flat_disjoint : forall (rs : list (nat * nat)),
  NoDup (flat_map (fun p => seq (fst p) (snd p - fst p)) rs) ->
  forall i j a b a' b', i <> j -> nth_error rs i = Some (a, b) -> nth_error rs j = Some (a', b') ->
  a <= b -> a' <= b' -> b <= a' \/ b' <= a \/ a = b \/ a' = b'.
Proof.
  induction rs as [|[x y] rs IH]; intros HN i j a b a' b' Hij Hi Hj Hab Hab'.
  - destruct i; discriminate.
  - cbn [flat_map fst snd] in HN.
    assert (HN2 : NoDup (flat_map (fun p => seq (fst p) (snd p - fst p)) rs)).
    { clear -HN. induction (seq x (y - x)); auto. inversion HN; auto. }
    assert (Hkey : forall q c d, nth_error rs q = Some (c, d) -> c <= d -> x <= y ->
        y <= c \/ d <= x \/ x = y \/ c = d).
    { intros q c d Hq Hcd Hxy.
      destruct (Nat.eq_dec x y); [auto|]. destruct (Nat.eq_dec c d); [auto|].
      destruct (Nat.le_gt_cases y c); auto. destruct (Nat.le_gt_cases d x); auto. exfalso.
      set (k := Nat.max x c).
      assert (In k (seq x (y - x))) by (apply in_seq; subst k; lia).
      assert (In k (flat_map (fun p => seq (fst p) (snd p - fst p)) rs)).
      { apply in_flat_map. exists (c, d). split; [eapply nth_error_In; eauto|]. cbn. apply in_seq. subst k; lia. }
      clear -HN H1 H2. induction (seq x (y - x)); [destruct H1|]. cbn in HN. inversion HN; subst.
      destruct H1 as [->|H1]; auto. apply H3. apply in_or_app; auto. }
    destruct i, j; cbn in Hi, Hj; try lia.
    + injection Hi as <- <-. destruct (Hkey _ _ _ Hj) as [|[|[|]]]; auto.
    + injection Hj as <- <-. destruct (Hkey _ _ _ Hi) as [|[|[|]]]; auto.
    + apply (IH HN2 i j a b a' b'); auto.
Qed.

Lemma covers_disjoint : forall range js, covers range js ->
  forall i j a b a' b', i <> j -> nth_error (nat_ranges js) i = Some (a, b) ->
    nth_error (nat_ranges js) j = Some (a', b') -> b <= a' \/ b' <= a.
Proof.
  intros range js C i j a b a' b' Hij Hi Hj.
  pose proof (covers_ranges range js C) as HR. pose proof C as (_ & _ & _ & C4).
  pose proof (HR _ _ (nth_error_In _ _ Hi)). pose proof (HR _ _ (nth_error_In _ _ Hj)).
  destruct (flat_disjoint (nat_ranges js)) with (i := i) (j := j) (a := a) (b := b) (a' := a') (b' := b'); auto; try lia.
  rewrite C4. apply seq_NoDup.
Qed.

Lemma covers_mem : forall range js k, covers range js -> k < Z.to_nat range ->
  exists a b, In (a, b) (nat_ranges js) /\ a <= k < b.
Proof.
  intros range js k (_ & _ & _ & C4) Hk.
  assert (In k (seq 0 (Z.to_nat range))) by (apply in_seq; lia).
  rewrite <- C4 in H. apply in_flat_map in H. destruct H as ([a b] & H1 & H2). cbn in H2. apply in_seq in H2.
  exists a, b. split; auto. lia.
Qed.

Lemma nth_error_map_iff : forall (js : list job) i j, nth_error js i = Some j ->
  nth_error (nat_ranges js) i = Some (Z.to_nat (snd (fst j)), Z.to_nat (snd j)).
Proof. intros. unfold nat_ranges. apply map_nth_error with (f := fun j : job => (Z.to_nat (snd (fst j)), Z.to_nat (snd j))). auto. Qed.

Section Run.
Context {A V E : Type}.
Variable body : A -> nat -> A + E.
Variable wr : nat -> V.

(** the result of running job (a,b) alone on its accumulator *)
Definition alone (rs : list (nat * nat)) (out : list A) (i : nat) : option (A * option E) :=
  match nth_error rs i, nth_error out i with
  | Some (a, b), Some acc => Some (seqrun body (b - a) a acc) | _, _ => None end.

Lemma alone_eq : forall rs out i, alone rs out i = job_alone body rs out i.
Proof. reflexivity. Qed.

Section J.
Variables (range : Z) (js : list job) (out : list A) (cells : nat -> V).
Hypothesis C : covers range js.
Hypothesis L : length js <= length out.
Let L' : length (nat_ranges js) <= length out. Proof. rewrite nat_ranges_length; auto. Qed.
Let O' : forall a b, In (a, b) (nat_ranges js) -> a <= b.
Proof. intros a b H. pose proof (covers_ranges range js C a b H). lia. Qed.
Let D' := covers_disjoint range js C.

Lemma run_threads_returned : forall out' cells', run_threads body wr js out cells (Returned out' cells') ->
  (forall i, i < length js -> exists acc, nth_error out' i = Some acc /\ alone (nat_ranges js) out i = Some (acc, None)) /\
  (forall i, length js <= i -> nth_error out' i = nth_error out i) /\ length out' = length out /\
  (forall k, k < Z.to_nat range -> cells' k = wr k) /\ (forall k, Z.to_nat range <= k -> cells' k = cells k).
Proof.
  intros out' cells' H. inversion H as [c H1 H2 H3|]; subst.
  destruct (final_return body wr (nat_ranges js) out cells L' O' D' c H1 H2) as (F1 & F2 & F3 & F4 & F5 & F6).
  rewrite nat_ranges_length in *. repeat split; auto.
  - intros k Hk. destruct (covers_mem range js k C Hk) as (a & b & Hin & Hk'). eapply F4; eauto.
  - intros k Hk. apply F5. intros a b Hin. pose proof (covers_ranges range js C a b Hin). lia.
Qed.

Lemma run_threads_threw : forall e, run_threads body wr js out cells (Threw e) ->
  exists p acc, p < length js /\ alone (nat_ranges js) out p = Some (acc, Some e) /\
    (forall j, j < p -> exists accj, alone (nat_ranges js) out j = Some (accj, None)).
Proof.
  intros e H. inversion H as [|c e' H1 H2 H3]; subst.
  destruct (final_throw body wr (nat_ranges js) out cells L' O' D' c e H1 H2) as (p & acc & P1 & P2 & P3 & P4).
  exists p, acc. rewrite nat_ranges_length in P1. auto.
Qed.

Lemma run_threads_total : exists r, run_threads body wr js out cells r.
Proof.
  destruct (reach_final body wr (nat_ranges js) out cells L' O' D' _ (start (nat_ranges js) out cells) (le_n _)
     (start_inv body wr (nat_ranges js) out cells L')) as (c & S & [F|[e F]]).
  - eexists. eapply rt_ret; eauto.
  - eexists. eapply rt_throw; eauto.
Qed.

Lemma run_threads_shape : forall r, run_threads body wr js out cells r ->
  (exists o c, r = Returned o c) \/ exists e, r = Threw e.
Proof. intros r H; inversion H; eauto. Qed.

(** when the call ends with an exception every worker has ended *)
Lemma run_threads_all_ended : forall c, psteps body wr (nat_ranges js) (start (nat_ranges js) out cells) c ->
  (c_main c = MRet \/ exists e, c_main c = MThrew e) ->
  forall i s, nth_error (c_w c) i = Some s -> s = WEnd \/ exists e', s = WExn e'.
Proof.
  intros c H [F|[e F]] i s Hs.
  - left. destruct (final_return body wr (nat_ranges js) out cells L' O' D' c H F) as (_ & _ & _ & _ & _ & F6). eauto.
  - destruct (final_throw body wr (nat_ranges js) out cells L' O' D' c e H F) as (p & acc & _ & _ & _ & P4). eauto.
Qed.

Lemma run_threads_wf : Acc (fun y x => pstep body wr (nat_ranges js) x y) (start (nat_ranges js) out cells).
Proof. apply (terminates body wr (nat_ranges js) out cells L' O' D'). apply start_inv; auto. Qed.
End J.

(** summary: the outcome is determined by the jobs run alone *)
Lemma run_threads_iff : forall range js out cells, covers range js -> length js <= length out ->
  (forall e, run_threads body wr js out cells (Threw e) <->
     exists p acc, p < length js /\ alone (nat_ranges js) out p = Some (acc, Some e) /\
       (forall j, j < p -> exists accj, alone (nat_ranges js) out j = Some (accj, None))) /\
  ((exists o c, run_threads body wr js out cells (Returned o c)) <->
     forall i, i < length js -> exists acc, alone (nat_ranges js) out i = Some (acc, None)).
Proof.
  intros range js out cells C L.
  assert (T := run_threads_total range js out cells C L). destruct T as (r & Hr).
  assert (EX : forall e, (exists p acc, p < length js /\ alone (nat_ranges js) out p = Some (acc, Some e) /\
       (forall j, j < p -> exists accj, alone (nat_ranges js) out j = Some (accj, None))) -> r = Threw e).
  { intros e (p & acc & P1 & P2 & P3). destruct (run_threads_shape js out cells r Hr) as [(o & c & ->)|(e' & ->)].
    - destruct (run_threads_returned range js out cells C L o c Hr) as (R1 & _).
      destruct (R1 p P1) as (acc' & _ & R2). congruence.
    - destruct (run_threads_threw range js out cells C L e' Hr) as (q & accq & Q1 & Q2 & Q3).
      destruct (Nat.lt_trichotomy p q) as [Hlt|[->|Hlt]].
      + destruct (Q3 p Hlt) as (x & X). congruence.
      + congruence.
      + destruct (P3 q Hlt) as (x & X). congruence. }
  split.
  - intros e. split.
    + apply (run_threads_threw range js out cells C L).
    + intros H. rewrite <- (EX e H). exact Hr.
  - split.
    + intros (o & c & H) i Hi. destruct (run_threads_returned range js out cells C L o c H) as (R1 & _).
      destruct (R1 i Hi) as (acc & _ & R2). eauto.
    + intros H. destruct (run_threads_shape js out cells r Hr) as [(o & c & ->)|(e' & ->)]; eauto.
      destruct (run_threads_threw range js out cells C L e' Hr) as (q & accq & Q1 & Q2 & Q3).
      destruct (H q Q1) as (x & X). congruence.
Qed.
End Run.

(** ** additive accumulators *)
Section Sum.
Context {A V E : Type}.
Variable add : A -> A -> A.
Variable zero : A.
Variable term : nat -> A + E.
Variable aeq : A -> A -> Prop.
Hypothesis aeq_refl : forall a, aeq a a.
Hypothesis aeq_trans : forall a b c, aeq a b -> aeq b c -> aeq a c.
Hypothesis aeq_sym : forall a b, aeq a b -> aeq b a.
Hypothesis add_ext : forall a a' b b', aeq a a' -> aeq b b' -> aeq (add a b) (add a' b').
Hypothesis add_assoc : forall a b c, aeq (add a (add b c)) (add (add a b) c).
Hypothesis add_0_l : forall a, aeq (add zero a) a.
Hypothesis add_0_r : forall a, aeq (add a zero) a.
Variable wr : nat -> V.

Definition abody (acc : A) (k : nat) : A + E :=
  match term k with inl v => inl (add acc v) | inr e => inr e end.

(** value of a term, [zero] when it throws *)
Definition tv (k : nat) : A := match term k with inl v => v | inr _ => zero end.
Fixpoint asum (l : list nat) : A := match l with [] => zero | k :: t => add (tv k) (asum t) end.

Lemma asum_app : forall l1 l2, aeq (asum (l1 ++ l2)) (add (asum l1) (asum l2)).
Proof.
  induction l1 as [|k l1 IH]; intros l2; cbn.
  - apply aeq_sym, add_0_l.
  - eapply aeq_trans; [apply add_ext; [apply aeq_refl|apply IH]|]. apply add_assoc.
Qed.

Lemma seqrun_sum : forall cnt k acc,
  match seqrun abody cnt k acc with
  | (acc', None) => (forall j, k <= j < k + cnt -> exists v, term j = inl v) /\ aeq acc' (add acc (asum (seq k cnt)))
  | (_, Some e) => exists j, k <= j < k + cnt /\ term j = inr e /\ forall i, k <= i < j -> exists v, term i = inl v
  end.
Proof.
  induction cnt as [|cnt IH]; intros k acc; cbn [seqrun].
  - split; [intros; lia|]. apply aeq_sym, add_0_r.
  - unfold abody at 1. destruct (term k) as [v|e] eqn:Ek.
    + specialize (IH (S k) (add acc v)). destruct (seqrun abody cnt (S k) (add acc v)) as [acc' [e|]].
      * destruct IH as (j & J1 & J2 & J3). exists j. split; [lia|]. split; auto.
        intros i Hi. destruct (Nat.eq_dec i k); [subst; eauto|apply J3; lia].
      * destruct IH as [I1 I2]. split.
        -- intros j Hj. destruct (Nat.eq_dec j k); [subst; eauto|apply I1; lia].
        -- cbn [seq asum]. unfold tv at 1. rewrite Ek. eapply aeq_trans; [exact I2|]. apply aeq_sym, add_assoc.
    + exists k. split; [lia|]. split; auto. intros; lia.
Qed.

Fixpoint lfold (l : list A) : A := match l with [] => zero | x :: t => add x (lfold t) end.

Lemma lfold_app : forall l1 l2, aeq (lfold (l1 ++ l2)) (add (lfold l1) (lfold l2)).
Proof.
  induction l1 as [|k l1 IH]; intros l2; cbn.
  - apply aeq_sym, add_0_l.
  - eapply aeq_trans; [apply add_ext; [apply aeq_refl|apply IH]|]. apply add_assoc.
Qed.
Lemma lfold_repeat : forall n, aeq (lfold (repeat zero n)) zero.
Proof. induction n; cbn; auto. eapply aeq_trans; [apply add_0_l|auto]. Qed.

Lemma lfold_ranges : forall (rs : list (nat * nat)) (outs : list A),
  length outs = length rs ->
  (forall i a b, nth_error rs i = Some (a, b) -> exists acc, nth_error outs i = Some acc /\ aeq acc (asum (seq a (b - a)))) ->
  aeq (lfold outs) (asum (flat_map (fun p => seq (fst p) (snd p - fst p)) rs)).
Proof.
  induction rs as [|[a b] rs IH]; intros [|x outs] Hl H; try discriminate; cbn [lfold flat_map asum fst snd].
  - apply aeq_refl.
  - destruct (H 0 a b eq_refl) as (acc & E1 & E2). cbn in E1. injection E1 as <-.
    eapply aeq_trans; [|apply aeq_sym, asum_app]. apply add_ext; auto.
    apply IH; auto. intros i a' b' Hi. apply (H (S i)); auto.
Qed.

Definition sum_ok (range n : nat) (cells : nat -> V) (r : call_result) : Prop :=
  match r with
  | Returned out cells' => (forall k, k < range -> exists v, term k = inl v) /\ aeq (lfold out) (asum (seq 0 range)) /\ length out = n /\
      (forall k, k < range -> cells' k = wr k) /\ (forall k, range <= k -> cells' k = cells k)
  | Threw e => exists k, k < range /\ term k = inr e /\ forall i, i < k -> exists v, term i = inl v
  | _ => False
  end.

Lemma run_threads_sum : forall range nThreads js' cells r, covers (Z.of_nat range) js' -> length js' <= nThreads ->
  run_threads abody wr js' (repeat zero nThreads) cells r -> sum_ok range nThreads cells r.
Proof.
  intros range nThreads js' cells r C Lj Hrun.
    assert (Lj' : length js' <= length (repeat zero nThreads)) by (rewrite repeat_length; auto).
    assert (Halone : forall i a b, nth_error (nat_ranges js') i = Some (a, b) -> alone abody (nat_ranges js') (repeat zero nThreads) i =
        Some (seqrun abody (b - a) a zero)).
    { intros i a b Hi. unfold alone. rewrite Hi.
      assert (i < nThreads). { assert (i < length (nat_ranges js')) by (apply nth_error_Some; congruence).
        rewrite nat_ranges_length in H. lia. }
      rewrite nth_error_repeat by auto. reflexivity. }
    destruct (run_threads_shape abody wr js' _ cells r Hrun) as [(o & c & ->)|(e & ->)].
    + destruct (run_threads_returned abody wr (Z.of_nat range) js' _ cells C Lj' o c Hrun) as (R1 & R2 & R3 & R4 & R5).
      rewrite Nat2Z.id in R4, R5.
      rewrite repeat_length in R3.
      assert (HR : forall i a b, nth_error (nat_ranges js') i = Some (a, b) -> exists acc, nth_error o i = Some acc /\
           aeq acc (asum (seq a (b - a))) /\ forall j, a <= j < b -> exists v, term j = inl v).
      { intros i a b Hi. assert (Hil : i < length js').
        { rewrite <- nat_ranges_length. apply nth_error_Some; congruence. }
        destruct (R1 i Hil) as (acc & A1 & A2). rewrite (Halone i a b Hi) in A2.
        pose proof (seqrun_sum (b - a) a zero) as S. injection A2 as A2. rewrite A2 in S. destruct S as [S1 S2].
        exists acc. split; auto. split. { eapply aeq_trans; [exact S2|apply add_0_l]. }
        intros j Hj. apply S1. lia. }
      split; [|split; [|split; [auto|split; auto]]].
      * intros k Hk. destruct (covers_mem _ _ k C) as (a & b & Hin & Hk'); [lia|].
        apply In_nth_error in Hin. destruct Hin as (i & Hi).
        destruct (HR i a b Hi) as (acc & _ & _ & HT). auto.
      * rewrite <- (firstn_skipn (length js') o).
        eapply aeq_trans; [apply lfold_app|].
        assert (Hsk : skipn (length js') o = repeat zero (nThreads - length js')).
        { apply nth_ext with (d := zero) (d' := zero); [rewrite skipn_length, repeat_length; lia|].
          intros i Hi. rewrite skipn_length in Hi. rewrite nth_repeat.
          assert (nth_error (skipn (length js') o) i = Some zero).
          { 
            assert (X : nth_error (skipn (length js') o) i = nth_error o (length js' + i)).
            { clear. revert o; induction (length js') as [|n IH]; intros [|y o]; cbn; auto; destruct i; auto. }
            rewrite X, R2 by lia. apply nth_error_repeat. lia. }
          apply nth_error_nth; auto. }
        rewrite Hsk. eapply aeq_trans; [apply add_ext; [apply aeq_refl|apply lfold_repeat]|].
        eapply aeq_trans; [apply add_0_r|].
        pose proof C as (_ & _ & _ & C4). rewrite Nat2Z.id in C4. rewrite <- C4.
        apply lfold_ranges.
        -- rewrite firstn_length, nat_ranges_length. lia.
        -- intros i a b Hi. destruct (HR i a b Hi) as (acc & A1 & A2 & _). exists acc. split; auto.
           assert (Hil : i < length js').
           { rewrite <- nat_ranges_length. apply nth_error_Some; congruence. }
           clear - A1 Hil. revert i o A1 Hil. generalize (length js'). induction n; intros i o A1 Hil; [lia|].
           destruct o; [destruct i; discriminate|]. destruct i; cbn in *; auto. apply IHn; auto. lia.
    + destruct (run_threads_threw abody wr (Z.of_nat range) js' _ cells C Lj' e Hrun) as (p & acc & P1 & P2 & P3).
      assert (Hp : exists a b, nth_error (nat_ranges js') p = Some (a, b)).
      { destruct (nth_error (nat_ranges js') p) as [[a b]|] eqn:Ep; eauto. apply nth_error_None in Ep.
        rewrite nat_ranges_length in Ep. lia. }
      destruct Hp as (a & b & Hp). rewrite (Halone p a b Hp) in P2. injection P2 as P2.
      pose proof (seqrun_sum (b - a) a zero) as S. rewrite P2 in S. destruct S as (k & K1 & K2 & K3).
      pose proof (covers_ranges _ _ C a b (nth_error_In _ _ Hp)) as HR.
      exists k. split; [lia|]. split; auto. intros i Hi.
      destruct (Nat.le_gt_cases a i); [apply K3; lia|].
      destruct (covers_mem _ _ i C) as (a' & b' & Hin & Hi'); [lia|].
      apply In_nth_error in Hin. destruct Hin as (q & Hq).
      destruct (Nat.lt_ge_cases q p) as [Hqp|Hqp].
      * destruct (P3 q Hqp) as (accq & Q). rewrite (Halone q a' b' Hq) in Q. injection Q as Q.
        pose proof (seqrun_sum (b' - a') a' zero) as S. rewrite Q in S. destruct S as [S1 _]. apply S1. lia.
      * (* ranges are in order: a later job cannot contain an earlier index *)
        exfalso. destruct (Nat.eq_dec q p); [subst; rewrite Hp in Hq; injection Hq as <- <-; lia|].
        assert (Hord : forall (rs : list (nat * nat)) s n, flat_map (fun p => seq (fst p) (snd p - fst p)) rs = seq s n ->
            (forall a b, In (a, b) rs -> a < b) ->
            forall p q a b a' b', p < q -> nth_error rs p = Some (a, b) -> nth_error rs q = Some (a', b') -> b <= a').
        { clear. induction rs as [|[x y] rs IH]; intros s n Hf Hne p q a b a' b' Hpq Hp Hq; [destruct p; discriminate|].
          cbn [flat_map fst snd] in Hf.
          assert (Hxy : x < y) by (apply Hne; left; auto).
          destruct (y - x) as [|d] eqn:Ed; [lia|]. destruct n as [|n]; [cbn in Hf; discriminate|].
          assert (x = s) by (cbn in Hf; injection Hf; auto). subst s.
          assert (Hn : S d <= S n).
          { apply (f_equal (@length nat)) in Hf. rewrite app_length, !seq_length in Hf. lia. }
          replace (S n) with (S d + (S n - S d)) in Hf by lia. rewrite seq_app in Hf. apply app_inv_head in Hf.
          assert (Hall : forall c d', In (c, d') rs -> y <= c).
          { intros c d' Hcd. assert (c < d') by (apply Hne; right; auto).
            assert (In c (flat_map (fun p => seq (fst p) (snd p - fst p)) rs)).
            { apply in_flat_map. exists (c, d'). split; auto. cbn. apply in_seq. lia. }
            rewrite Hf in H0. apply in_seq in H0. lia. }
          destruct q; [lia|]. cbn in Hq. destruct p.
          - cbn in Hp. injection Hp as <- <-. eapply Hall. eapply nth_error_In; eauto.
          - cbn in Hp. eapply (IH _ _ Hf) with (p := p) (q := q); eauto. intros; apply Hne; right; auto. lia. }
        pose proof C as (_ & _ & _ & C4).
        specialize (Hord (nat_ranges js') _ _ C4 (fun a b H => proj1 (covers_ranges _ _ C a b H)) p q a b a' b' ltac:(lia) Hp Hq). lia.
Qed.


Lemma seqcells_spec : forall range cells, (forall k, k < range -> seqcells wr range cells k = wr k) /\
  (forall k, range <= k -> seqcells wr range cells k = cells k).
Proof.
  unfold seqcells. induction range as [|n IH]; intros cells.
  - split; intros; [lia|reflexivity].
  - rewrite seq_S, fold_left_app. cbn [Nat.add fold_left]. destruct (IH cells) as [I1 I2]. unfold set_cell.
    split; intros k Hk; destruct (Nat.eqb_spec k n); subst; auto; try lia; try (apply I1; lia); apply I2; lia.
Qed.

Lemma run_single_sum : forall range n cells, 0 < n -> sum_ok range n cells (run_single abody wr range (repeat zero n) cells).
Proof.
  intros range n cells Hn. destruct n as [|n]; [lia|]. unfold run_single. cbn [repeat].
  pose proof (seqrun_sum range 0 zero) as S. destruct (seqrun abody range 0 zero) as [acc' [e|]].
  - destruct S as (j & J1 & J2 & J3). exists j. split; [lia|]. split; auto. intros; apply J3; lia.
  - destruct S as [S1 S2]. destruct (seqcells_spec range cells). split; [intros; apply S1; lia|]. split; [|split; auto].
    + cbn. eapply aeq_trans; [apply add_ext; [exact S2|apply lfold_repeat]|]. eapply aeq_trans; [apply add_0_r|apply add_0_l].
    + cbn. rewrite repeat_length. auto.
Qed.

Lemma threaded_sum : forall range nThreads cells r, (Z.of_nat range <= i32max)%Z -> 0 < nThreads ->
  runThreadedFunction abody wr range (repeat zero nThreads) cells r -> sum_ok range nThreads cells r.
Proof.
  intros range nThreads cells r Hr Ht H. inversion H as [H0 H1|H0 H1 H2|H0 H1 H2|js r' H0 H1 H2 H3 H4]; subst; clear H;
    rewrite repeat_length in *; try lia.
  - cbn. split; [intros; lia|]. split; [apply lfold_repeat|]. split; [apply repeat_length|]. split; intros; [lia|auto].
  - apply run_single_sum; auto.
  - destruct (runThreadedJob_covers (Z.of_nat range) (Z.of_nat nThreads)) as (js' & E' & C & L); [lia|lia|].
    rewrite E' in H2. injection H2 as <-. eapply run_threads_sum; eauto. lia.
Qed.

Lemma setup_sum : forall range nThreads n cells r, (0 < Z.of_nat range <= i32max)%Z -> 0 < n -> nThreads <= n ->
  setupThreadedJob abody wr range nThreads (repeat zero n) cells r -> sum_ok range n cells r.
Proof.
  intros range nThreads n cells r Hr Hn Ht H. 
  destruct (setupThreadedJob_covers (Z.of_nat range) (Z.of_nat nThreads)) as (js' & E' & C & L); [lia|lia|].
  inversion H as [H1 H2|js r' H1 H2 H3 H4|H1 H2 H3]; subst; clear H.
  - apply run_single_sum; auto.
  - rewrite E' in H2. injection H2 as <-. eapply run_threads_sum; eauto. lia.
  - congruence.
Qed.

Lemma setup_total : forall range nThreads n cells, (0 < Z.of_nat range <= i32max)%Z -> 0 < n -> nThreads <= n ->
  exists r, setupThreadedJob abody wr range nThreads (repeat zero n) cells r.
Proof.
  intros range nThreads n cells Hr Hn Ht.
  destruct (Nat.le_gt_cases nThreads 1). { eexists; apply stj_one; auto. }
  destruct (setupThreadedJob_covers (Z.of_nat range) (Z.of_nat nThreads)) as (js' & E' & C & L); [lia|lia|].
  destruct (run_threads_total abody wr (Z.of_nat range) js' (repeat zero n) cells C) as (r & H1).
  { rewrite repeat_length. lia. }
  exists r. eapply stj_many; eauto.
Qed.

Lemma threaded_sum_total : forall range nThreads cells, (Z.of_nat range <= i32max)%Z -> 0 < nThreads ->
  exists r, runThreadedFunction abody wr range (repeat zero nThreads) cells r.
Proof.
  intros range nThreads cells Hr Ht.
  destruct (Nat.eq_dec range 0). { eexists. apply rtf_empty; auto. rewrite repeat_length; auto. }
  destruct (Nat.eq_dec nThreads 1). { eexists. apply rtf_one. rewrite repeat_length; auto. lia. }
  destruct (runThreadedJob_covers (Z.of_nat range) (Z.of_nat nThreads)) as (js & E' & C & L); [lia|lia|].
  destruct (run_threads_total abody wr (Z.of_nat range) js (repeat zero nThreads) cells C) as (r & H).
  { rewrite repeat_length. lia. }
  exists r. eapply rtf_many; eauto; rewrite ?repeat_length; try lia. exact E'.
Qed.
End Sum.
