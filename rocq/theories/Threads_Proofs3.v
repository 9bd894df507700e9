(** * Sums over error terms computed by threads *)
From Coq Require Import Arith Lia List ZArith Bool Ring.
From Verif Require Import Lib_Ring Lib_Res Threads_Model Threads_Proofs Threads_Proofs2.
Import ListNotations.

Section S.
Context {K : Type} {R : CRing K}.
Add Ring Kring : (@kring K R).
Variable E : Type.

Lemma gather_lfold : forall l, gather l = lfold kadd k0 l.
Proof.
  unfold gather. intros l. assert (H : forall l a, fold_left (fun e x => kadd e x) l a = kadd a (lfold kadd k0 l)).
  { induction l0 as [|x l0 IH]; intros a; cbn; [ring|]. rewrite IH. ring. }
  rewrite H. ring.
Qed.

Lemma asum_ksum : forall (term : nat -> K + E) n, asum kadd k0 term (seq 0 n) = ksum n (tv k0 term).
Proof.
  intros term n. induction n as [|n IH]; [reflexivity|].
  rewrite seq_S. rewrite (asum_app kadd k0 term eq); try congruence; try (intros; subst; auto; ring).
  rewrite IH. cbn. ring.
Qed.

Definition pm_term (nNS : nat) (errNS errS : nat -> K + E) (i : nat) : K + E :=
  if i <? nNS then errNS i else errS (i - nNS).

Lemma pm_evaluateError_ok : forall nNS (errNS errS : nat -> K + E) numTerms nThreads,
  (Z.of_nat numTerms <= i32max)%Z -> 0 < nThreads ->
  (exists r v, pm_evaluateError E nNS errNS errS numTerms nThreads r v) /\
  (forall r v, pm_evaluateError E nNS errNS errS numTerms nThreads r v ->
    match v with
    | Some s => exists f, (forall i, i < numTerms -> pm_term nNS errNS errS i = inl (f i)) /\ s = ksum numTerms f
    | None => exists e k, r = Threw e /\ k < numTerms /\ pm_term nNS errNS errS k = inr e /\
        forall i, i < k -> exists x, pm_term nNS errNS errS i = inl x
    end).
Proof.
  intros nNS errNS errS numTerms nThreads Hn Ht.
  assert (HB : forall r, runThreadedFunction (sum_body E nNS errNS errS) (fun _ => tt) numTerms (repeat k0 nThreads) (fun _ => tt) r ->
     sum_ok kadd k0 (pm_term nNS errNS errS) eq (fun _ => tt) numTerms nThreads (fun _ => tt) r).
  { intros r H. apply threaded_sum; auto; try congruence; intros; subst; auto; ring. }
  split.
  - destruct (threaded_sum_total kadd k0 (pm_term nNS errNS errS) (fun _ => tt) numTerms nThreads (fun _ => tt) Hn Ht) as (r & H).
    assert (D : (exists o c, r = Returned o c) \/ forall o c, r <> Returned o c) by (destruct r; eauto; right; discriminate).
    destruct D as [(o & c & ->)|D].
    + exists (Returned o c), (Some (gather o)). apply pme_ret. exact H.
    + exists r, None. apply pme_other; auto.
  - intros r v H. inversion H as [out c H1|r' H1 H2]; subst.
    + specialize (HB _ H1). destruct HB as (B1 & B2 & _). exists (tv k0 (pm_term nNS errNS errS)). split.
      * intros i Hi. destruct (B1 i Hi) as (x & Hx). unfold tv. rewrite Hx. auto.
      * rewrite gather_lfold, B2. apply asum_ksum.
    + specialize (HB _ H1). destruct r; cbn in HB; try contradiction; [exfalso; eapply H2; eauto|].
      destruct HB as (k & K1 & K2 & K3). exists e, k. auto.
Qed.

Lemma lss_evaluateError_ok : forall (V : Type) (err : nat -> K + E) (wr cells : nat -> V) size nThreads,
  (0 < Z.of_nat size <= i32max)%Z ->
  (exists r v, lss_evaluateError E err V wr size nThreads cells r v) /\
  (forall r v, lss_evaluateError E err V wr size nThreads cells r v ->
    match v with
    | Some s => exists f out cells', (forall i, i < size -> err i = inl (f i)) /\ s = ksum size f /\
        r = Returned out cells' /\ (forall i, i < size -> cells' i = wr i) /\ (forall i, size <= i -> cells' i = cells i)
    | None => exists e k, r = Threw e /\ k < size /\ err k = inr e /\ forall i, i < k -> exists x, err i = inl x
    end).
Proof.
  intros V err wr cells size nThreads Hn. set (m := Nat.max 1 nThreads). assert (Hm : 0 < m) by (unfold m; lia).
  assert (HB : forall r, setupThreadedJob (lss_body E err) wr size m (repeat k0 m) cells r ->
     sum_ok kadd k0 err eq wr size m cells r).
  { intros r H. apply setup_sum with (nThreads := m); auto; intros; subst; auto; ring. }
  split.
  - destruct (setup_total kadd k0 err wr size m m cells Hn Hm (le_n _)) as (r & H).
    assert (D : (exists o c, r = Returned o c) \/ forall o c, r <> Returned o c) by (destruct r; eauto; right; discriminate).
    destruct D as [(o & c & ->)|D].
    + exists (Returned o c), (Some (gather o)). apply lsse_ret. exact H.
    + exists r, None. apply lsse_other; auto.
  - intros r v H. inversion H as [out c H1|r' H1 H2]; subst.
    + specialize (HB _ H1). destruct HB as (B1 & B2 & B3 & B4 & B5). exists (tv k0 err), out, c. split; [|split; [|split; [|split]]]; auto.
      * intros i Hi. destruct (B1 i Hi) as (x & Hx). unfold tv. rewrite Hx. auto.
      * rewrite gather_lfold, B2. apply asum_ksum.
    + specialize (HB _ H1). destruct r; cbn in HB; try contradiction; [exfalso; eapply H2; eauto|].
      destruct HB as (k & K1 & K2 & K3). exists e, k. auto.
Qed.

(** gradients *)
Definition veqp (a b : vec K) : Prop := forall i, a i = b i.
Definition grad_term (nNS : nat) (gradNS gradS : nat -> vec K) (i : nat) : vec K :=
  if i <? nNS then gradNS i else gradS (i - nNS).

Lemma lfold_gather_grad : forall l, l <> [] -> veqp (gather_grad l) (lfold vadd (fun _ => k0) l).
Proof.
  intros [|g t] H; [congruence|]. cbn. clear H. intros i.
  assert (G : forall (t : list (vec K)) (a : vec K), fold_left (fun a x => vadd a x) t a i = kadd (a i) (lfold vadd (fun _ => k0) t i)).
  { induction t0 as [|x t0 IH]; intros a; cbn; [ring|]. rewrite IH. unfold vadd. ring. }
  rewrite G. unfold vadd. ring.
Qed.

Lemma grad_asum : forall nNS gradNS gradS n i,
  asum vadd (fun _ => k0) (fun k => inl (grad_term nNS gradNS gradS k) : vec K + E) (seq 0 n) i =
  ksum n (fun k => grad_term nNS gradNS gradS k i).
Proof.
  intros. induction n as [|n IH]; [reflexivity|].
  rewrite seq_S. rewrite (asum_app vadd (fun _ => k0) _ veqp); unfold veqp, vadd in *; intros; try congruence; try ring.
  rewrite IH. cbn. ring.
Qed.

Lemma pm_computeGradient_ok : forall nNS (gradNS gradS : nat -> vec K) numTerms nThreads,
  (Z.of_nat numTerms <= i32max)%Z -> 0 < nThreads ->
  (exists g, pm_computeGradient E nNS gradNS gradS numTerms nThreads g) /\
  (forall g, pm_computeGradient E nNS gradNS gradS numTerms nThreads g ->
    forall j, g j = ksum numTerms (fun i => (if i <? nNS then gradNS i else gradS (i - nNS)) j)).
Proof.
  intros nNS gradNS gradS numTerms nThreads Hn Ht.
  set (term := fun k => inl (grad_term nNS gradNS gradS k) : vec K + E).
  assert (HB : forall r, runThreadedFunction (grad_body E nNS gradNS gradS) (fun _ => tt) numTerms (repeat (fun _ => k0) nThreads) (fun _ => tt) r ->
     sum_ok vadd (fun _ => k0) term veqp (fun _ => tt) numTerms nThreads (fun _ => tt) r).
  { intros r H. apply threaded_sum; auto; unfold veqp, vadd; intros; try congruence; try ring. }
  split.
  - destruct (threaded_sum_total vadd (fun _ => k0) term (fun _ => tt) numTerms nThreads (fun _ => tt) Hn Ht) as (r & H).
    specialize (HB r H). destruct r; cbn in HB; try contradiction.
    + eexists. eapply pmg_ret. exact H.
    + destruct HB as (k & _ & X & _). discriminate.
  - intros g H j. inversion H as [out c H1]; subst. specialize (HB _ H1). destruct HB as (_ & B2 & B3 & _).
    rewrite lfold_gather_grad by (intros ->; cbn in B3; lia). rewrite B2. apply grad_asum.
Qed.

(** the two loops of evaluateGradients process the indices startIdx..endIdx-1 one after another *)
Lemma grad_loop1_spec : forall nNS (gradNS gradS : nat -> vec K) fuel cnt endIdx J,
  endIdx - cnt <= fuel -> cnt <= endIdx ->
  grad_loop1 nNS gradNS fuel cnt endIdx J =
    (Nat.max cnt (Nat.min endIdx nNS),
     fold_left (fun J i => vadd J (grad_term nNS gradNS gradS i)) (seq cnt (Nat.min endIdx nNS - cnt)) J).
Proof.
  intros nNS gradNS gradS. induction fuel as [|f IH]; intros cnt endIdx J H1 H2; cbn [grad_loop1].
  - replace (Nat.max cnt (Nat.min endIdx nNS)) with cnt by lia. replace (Nat.min endIdx nNS - cnt) with 0 by lia. reflexivity.
  - destruct (Nat.ltb_spec cnt endIdx); destruct (Nat.ltb_spec cnt nNS); cbn [andb].
    + rewrite IH by lia. replace (Nat.min endIdx nNS - cnt) with (S (Nat.min endIdx nNS - S cnt)) by lia. cbn [seq fold_left].
      replace (grad_term nNS gradNS gradS cnt) with (gradNS cnt)
        by (unfold grad_term; destruct (Nat.ltb_spec cnt nNS); [auto|lia]).
      replace (Nat.max (S cnt) (Nat.min endIdx nNS)) with (Nat.max cnt (Nat.min endIdx nNS)) by lia. reflexivity.
    + replace (Nat.max cnt (Nat.min endIdx nNS)) with cnt by lia. replace (Nat.min endIdx nNS - cnt) with 0 by lia. reflexivity.
    + replace (Nat.max cnt (Nat.min endIdx nNS)) with cnt by lia. replace (Nat.min endIdx nNS - cnt) with 0 by lia. reflexivity.
    + replace (Nat.max cnt (Nat.min endIdx nNS)) with cnt by lia. replace (Nat.min endIdx nNS - cnt) with 0 by lia. reflexivity.
Qed.
Lemma grad_loop2_spec : forall nNS (gradNS gradS : nat -> vec K) fuel cnt endIdx J, endIdx - cnt <= fuel -> (nNS <= cnt \/ endIdx <= cnt) ->
  grad_loop2 nNS gradS fuel cnt endIdx J = fold_left (fun J i => vadd J (grad_term nNS gradNS gradS i)) (seq cnt (endIdx - cnt)) J.
Proof.
  intros nNS gradNS gradS. induction fuel as [|f IH]; intros cnt endIdx J H1 H2; cbn [grad_loop2].
  - replace (endIdx - cnt) with 0 by lia. reflexivity.
  - destruct (Nat.ltb_spec cnt endIdx).
    + rewrite IH by lia. replace (endIdx - cnt) with (S (endIdx - S cnt)) by lia. cbn [seq fold_left].
      replace (grad_term nNS gradNS gradS cnt) with (gradS (cnt - nNS))
        by (unfold grad_term; destruct (Nat.ltb_spec cnt nNS); [lia|auto]). reflexivity.
    + replace (endIdx - cnt) with 0 by lia. reflexivity.
Qed.
Lemma evaluateGradients_seq : forall nNS (gradNS gradS : nat -> vec K) startIdx endIdx J, startIdx <= endIdx ->
  evaluateGradients nNS gradNS gradS startIdx endIdx J =
  fold_left (fun J i => vadd J (if i <? nNS then gradNS i else gradS (i - nNS))) (seq startIdx (endIdx - startIdx)) J.
Proof.
  intros nNS gradNS gradS s e J H. unfold evaluateGradients.
  rewrite (grad_loop1_spec nNS gradNS gradS) by lia.
  rewrite (grad_loop2_spec nNS gradNS gradS) by lia.
  rewrite <- fold_left_app. unfold grad_term.
  destruct (Nat.le_gt_cases s (Nat.min e nNS)) as [Hc|Hc].
  - replace (Nat.max s (Nat.min e nNS)) with (s + (Nat.min e nNS - s)) by lia.
    rewrite <- seq_app. do 2 f_equal. lia.
  - replace (Nat.max s (Nat.min e nNS)) with s by lia. replace (Nat.min e nNS - s) with 0 by lia. reflexivity.
Qed.
End S.
