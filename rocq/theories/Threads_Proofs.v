(** * Lemmas for the threaded range processing *)
From Coq Require Import Arith Lia List ZArith Bool Ring.
From Verif Require Import Lib_Ring Lib_Res Threads_Model.
Import ListNotations.

(** ** Ranges *)
Lemma wrap32_id : forall z, (0 <= z <= i32max)%Z -> wrap32 z = z.
Proof.
  intros z Hz. unfold wrap32, two32, i32max in *. rewrite Z.mod_small by lia.
  destruct (Z.leb_spec z 2147483647); lia.
Qed.
Lemma to_size_id : forall z, (0 <= z <= i32max)%Z -> to_size z = z.
Proof. intros z Hz. unfold to_size, two64, i32max in *. apply Z.mod_small. lia. Qed.

Lemma cumulative_ok : forall nJ n cur, (0 <= nJ)%Z -> (0 <= cur)%Z -> (cur + Z.of_nat n * nJ <= i32max)%Z ->
  cumulative nJ cur n = Ok (map (fun i => (cur + Z.of_nat i * nJ)%Z) (seq 0 (S n))).
Proof.
  intros nJ. induction n as [|n IH]; intros cur H1 H2 H3.
  - cbn. do 2 f_equal. lia.
  - cbn [cumulative]. unfold int_add.
    replace ((- i32max - 1 <=? cur + nJ) && (cur + nJ <=? i32max))%Z with true
      by (symmetry; rewrite andb_true_iff, !Z.leb_le; unfold i32max in *; nia).
    cbn [bind]. rewrite IH by nia. cbn [bind]. f_equal.
    change (seq 0 (S (S n))) with (0 :: seq 1 (S n)). rewrite map_cons. f_equal; [lia|].
    rewrite <- seq_shift, map_map. apply map_ext. intros; lia.
Qed.

(** boundary i of the split: i*nJ except the last, which is the length *)
Definition bound (range n nJ : Z) (i : nat) : Z :=
  if (Z.of_nat i =? n)%Z then range else (Z.of_nat i * nJ)%Z.

Lemma mk_jobs_cons : forall i a b t, mk_jobs i (a :: b :: t) = (i, to_size a, to_size b) :: mk_jobs (S i) (b :: t).
Proof. reflexivity. Qed.
Lemma mk_jobs_map : forall (f : nat -> Z) n i s,
  mk_jobs i (map f (seq s (S n))) = map (fun k => (i + k, to_size (f (s + k)), to_size (f (s + S k)))) (seq 0 n).
Proof.
  intros f. induction n as [|n IH]; intros i s; [reflexivity|].
  change (seq s (S (S n))) with (s :: S s :: seq (S (S s)) n).
  rewrite !map_cons, mk_jobs_cons. change (f (S s) :: map f (seq (S (S s)) n)) with (map f (seq (S s) (S n))).
  rewrite IH. cbn [seq map]. f_equal.
  - replace (i + 0) with i by lia. replace (s + 0) with s by lia. replace (s + 1) with (S s) by lia. reflexivity.
  - rewrite <- seq_shift, map_map. apply map_ext. intros k.
    replace (S i + k) with (i + S k) by lia. replace (S s + k) with (s + S k) by lia.
    replace (S s + S k) with (s + S (S k)) by lia. reflexivity.
Qed.

Lemma split_ok : forall range nThreads, (0 < range <= i32max)%Z -> (0 < nThreads)%Z ->
  let n := Z.min nThreads range in let nJ := (range / n)%Z in
  split_range range nThreads =
    Ok (map (fun k => (k, bound range n nJ k, bound range n nJ (S k))) (seq 0 (Z.to_nat n))) /\
  (1 <= nJ)%Z /\ (n * nJ <= range)%Z /\ (0 < n)%Z.
Proof.
  intros range nThreads Hr Ht n nJ.
  assert (Hn : (0 < n <= range)%Z) by (subst n; lia).
  assert (HnJ : (1 <= nJ)%Z) by (subst nJ; apply Z.div_le_lower_bound; lia).
  assert (Hm : (n * nJ <= range)%Z) by (subst nJ; apply Z.mul_div_le; lia).
  split; [|lia].
  unfold split_range. fold n. destruct (Z.eqb_spec n 0); [lia|].
  fold nJ. rewrite wrap32_id by nia. rewrite Z.max_r by lia.
  rewrite cumulative_ok by (try lia; rewrite Z2Nat.id by lia; lia). cbn [bind]. f_equal.
  rewrite wrap32_id by lia.
  set (m := Z.to_nat n). assert (Em : Z.of_nat m = n) by (subst m; lia).
  replace (removelast (map (fun i => (0 + Z.of_nat i * nJ)%Z) (seq 0 (S m))) ++ [range])
    with (map (bound range n nJ) (seq 0 (S m))).
  - rewrite mk_jobs_map. apply map_ext_in. intros k Hk. apply in_seq in Hk. cbn [Nat.add].
    assert (forall i, i <= m -> (0 <= bound range n nJ i <= i32max)%Z).
    { intros i Hi. unfold bound. destruct (Z.eqb_spec (Z.of_nat i) n); [lia|]. nia. }
    rewrite !to_size_id by (apply H; lia). reflexivity.
  - rewrite seq_S, !map_app. cbn [map]. rewrite removelast_last. f_equal.
    + apply map_ext_in. intros k Hk. apply in_seq in Hk. unfold bound.
      destruct (Z.eqb_spec (Z.of_nat k) n); lia.
    + unfold bound. rewrite (proj2 (Z.eqb_eq _ _)) by lia. reflexivity.
Qed.

Lemma mono_from : forall (f : nat -> Z) n, (forall i, i < n -> (f i <= f (S i))%Z) ->
  forall j i, i <= j -> j <= n -> (f i <= f j)%Z.
Proof.
  intros f n Hm. induction j as [|j IH]; intros i Hi Hj.
  - replace i with 0 by lia. lia.
  - destruct (Nat.eq_dec i (S j)); [subst; lia|]. specialize (IH i ltac:(lia) ltac:(lia)).
    specialize (Hm j ltac:(lia)). lia.
Qed.

Lemma filter_none : forall X (p : X -> bool) l, (forall x, In x l -> p x = false) -> filter p l = [].
Proof. intros X p. induction l as [|x l IH]; intros H; cbn; auto. rewrite H by (left; auto). apply IH. intros; apply H; right; auto. Qed.

Lemma tile : forall (f : nat -> Z) n k, (forall i, i < n -> (f i <= f (S i))%Z) -> (f O <= k < f n)%Z ->
  length (filter (fun i => (f i <=? k)%Z && (k <? f (S i))%Z) (seq 0 n)) = 1.
Proof.
  intros f. induction n as [|n IH]; intros k Hm Hk; [lia|].
  rewrite seq_S, filter_app, app_length. cbn [Nat.add filter].
  pose proof (mono_from f (S n) Hm) as Hmono.
  destruct (Z.lt_ge_cases k (f n)).
  - rewrite IH by (auto; lia). destruct (Z.leb_spec (f n) k); [lia|]. cbn. lia.
  - rewrite filter_none.
    + rewrite (proj2 (Z.leb_le _ _)), (proj2 (Z.ltb_lt _ _)) by lia. reflexivity.
    + intros i Hi. apply in_seq in Hi. specialize (Hmono n (S i)). destruct (Z.ltb_spec k (f (S i))); [lia|].
      apply andb_false_r.
Qed.

Lemma bound_mono : forall range n nJ m, (1 <= nJ)%Z -> (n * nJ <= range)%Z -> Z.of_nat m = n ->
  forall i, i < m -> (bound range n nJ i < bound range n nJ (S i))%Z.
Proof.
  intros range n nJ m H1 H2 H3 i Hi. unfold bound.
  destruct (Z.eqb_spec (Z.of_nat i) n); [lia|]. destruct (Z.eqb_spec (Z.of_nat (S i)) n); nia.
Qed.

Definition covers (range : Z) (js : list job) : Prop :=
  map (fun j => fst (fst j)) js = seq 0 (length js) /\
  (forall i a b, In (i, a, b) js -> (0 <= a < b)%Z /\ (b <= range)%Z) /\
  (forall k, (0 <= k < range)%Z ->
     length (filter (fun j => (snd (fst j) <=? k)%Z && (k <? snd j)%Z) js) = 1) /\
  (flat_map (fun p => seq (fst p) (snd p - fst p)) (nat_ranges js) = seq 0 (Z.to_nat range)).

Lemma flat_seq_tile : forall (f : nat -> nat) n, (forall i, i < n -> f i <= f (S i)) ->
  flat_map (fun p => seq (fst p) (snd p - fst p)) (map (fun k => (f k, f (S k))) (seq 0 n)) = seq (f 0) (f n - f 0).
Proof.
  intros f. induction n as [|n IH]; intros H.
  - cbn. rewrite Nat.sub_diag. reflexivity.
  - rewrite seq_S, map_app, flat_map_app, IH by auto. cbn [map flat_map fst snd Nat.add]. rewrite app_nil_r.
    assert (f 0 <= f n).
    { clear IH. induction n as [|n IHn]; auto. etransitivity; [apply IHn; intros; apply H; lia|apply H; lia]. }
    specialize (H n ltac:(lia)).
    replace (f (S n) - f 0) with ((f n - f 0) + (f (S n) - f n)) by lia. rewrite seq_app.
    do 2 f_equal. lia.
Qed.

Lemma covers_split : forall range nThreads, (0 < range <= i32max)%Z -> (0 < nThreads)%Z ->
  exists js, split_range range nThreads = Ok js /\ covers range js /\ Z.of_nat (length js) = Z.min nThreads range.
Proof.
  intros range nThreads Hr Ht.
  destruct (split_ok range nThreads Hr Ht) as (E & H1 & H2 & H3).
  set (n := Z.min nThreads range) in *. set (nJ := (range / n)%Z) in *.
  set (m := Z.to_nat n) in *. assert (Em : Z.of_nat m = n) by (subst m; lia).
  pose proof (bound_mono range n nJ m H1 H2 Em) as Hmono.
  assert (H0 : bound range n nJ 0 = 0%Z) by (unfold bound; destruct (Z.eqb_spec (Z.of_nat 0) n); lia).
  assert (Hlast : bound range n nJ m = range) by (unfold bound; rewrite (proj2 (Z.eqb_eq _ _)) by lia; reflexivity).
  assert (Hmono' : forall i j, i <= j -> j <= m -> (bound range n nJ i <= bound range n nJ j)%Z).
  { intros i j Hi Hj. apply (mono_from _ m); auto. intros x Hx. specialize (Hmono x Hx). lia. }
  eexists; split; [exact E|]. split; [|rewrite map_length, seq_length; auto].
  unfold covers. rewrite map_length, seq_length. repeat split.
  - rewrite map_map. cbn [fst]. apply map_id.
  - apply in_map_iff in H. destruct H as (k & Hk & Hin). injection Hk as <- <- <-. apply in_seq in Hin.
    specialize (Hmono' 0 k). lia.
  - apply in_map_iff in H. destruct H as (k & Hk & Hin). injection Hk as <- <- <-. apply in_seq in Hin.
    apply Hmono. lia.
  - apply in_map_iff in H. destruct H as (k & Hk & Hin). injection Hk as <- <- <-. apply in_seq in Hin.
    specialize (Hmono' (S k) m). lia.
  - intros k Hk.
    assert (Hf : forall l, length (filter (fun j : job => (snd (fst j) <=? k)%Z && (k <? snd j)%Z)
       (map (fun k0 => (k0, bound range n nJ k0, bound range n nJ (S k0))) l)) =
       length (filter (fun i => (bound range n nJ i <=? k)%Z && (k <? bound range n nJ (S i))%Z) l)).
    { induction l as [|x l IH]; [reflexivity|]. cbn [map filter fst snd].
      destruct ((bound range n nJ x <=? k)%Z && (k <? bound range n nJ (S x))%Z); cbn; auto. }
    rewrite Hf. apply tile.
    + intros i Hi. specialize (Hmono i Hi). lia.
    + rewrite H0, Hlast. exact Hk.
  - unfold nat_ranges. rewrite map_map. cbn [fst snd].
    rewrite (flat_seq_tile (fun k => Z.to_nat (bound range n nJ k))).
    + rewrite H0, Hlast. cbn. rewrite Nat.sub_0_r. reflexivity.
    + intros i Hi. specialize (Hmono i Hi). lia.
Qed.

Lemma covers_single : forall range, (0 < range)%Z -> covers range [(0, 0%Z, range)].
Proof.
  intros range Hr. unfold covers. repeat split; cbn [In length map seq fst snd filter].
  - destruct H as [H|[]]; injection H; lia.
  - destruct H as [H|[]]; injection H; lia.
  - destruct H as [H|[]]; injection H; lia.
  - intros k Hk. rewrite (proj2 (Z.leb_le _ _)), (proj2 (Z.ltb_lt _ _)) by lia. reflexivity.
  - unfold nat_ranges; cbn. rewrite Nat.sub_0_r, app_nil_r. reflexivity.
Qed.

Lemma runThreadedJob_covers : forall range nThreads, (0 <= range <= i32max)%Z -> (0 < nThreads)%Z ->
  exists js, runThreadedJob_ranges range nThreads = Ok js /\ covers range js /\
    Z.of_nat (length js) = Z.min nThreads range.
Proof.
  intros range nThreads Hr Ht. unfold runThreadedJob_ranges.
  destruct (Z.eqb_spec nThreads 0); [lia|].
  destruct (Z.eqb_spec range 0).
  - subst. exists []. split; auto. split; [|cbn; lia]. unfold covers. cbn. repeat split; try contradiction.
    intros; lia.
  - destruct (Z.eqb_spec nThreads 1).
    + eexists; split; [reflexivity|]. split; [apply covers_single; lia|cbn; lia].
    + apply covers_split; lia.
Qed.

Lemma setupThreadedJob_covers : forall size nThreads, (0 < size <= i32max)%Z -> (0 <= nThreads)%Z ->
  exists js, setupThreadedJob_ranges size nThreads = Ok js /\ covers size js /\
    Z.of_nat (length js) = Z.min (Z.max 1 nThreads) size.
Proof.
  intros size nThreads Hr Ht. unfold setupThreadedJob_ranges.
  destruct (Z.leb_spec nThreads 1).
  - eexists; split; [reflexivity|]. split; [apply covers_single; lia|cbn; lia].
  - destruct (covers_split size nThreads) as (js & E & C & L); [lia|lia|].
    exists js. split; auto. split; auto. lia.
Qed.

(** ** Concurrent execution *)
Section Conc.
Context {A V E : Type}.
Variable body : A -> nat -> A + E.
Variable wr : nat -> V.
Variable ranges : list (nat * nat).
Variable out0 : list A.
Variable cells0 : nat -> V.
Hypothesis Hlen : length ranges <= length out0.
Hypothesis Hord : forall a b, In (a, b) ranges -> a <= b.

Notation seqrun := (Threads_Model.seqrun body).

Definition job_result (i : nat) (a b : nat) (r : A * option E) : Prop :=
  exists acc, nth_error out0 i = Some acc /\ r = seqrun (b - a) a acc.

(** invariant for worker i *)
Definition winv (i : nat) (s : @wstate E) (acc : A) (cells : nat -> V) : Prop :=
  exists a b acc0, nth_error ranges i = Some (a, b) /\ nth_error out0 i = Some acc0 /\
  match s with
  | WNot => acc = acc0
  | WRun k b' => b' = b /\ a <= k <= b /\ seqrun (b - k) k acc = seqrun (b - a) a acc0 /\
       (forall k', a <= k' < k -> cells k' = wr k')
  | WEnd => seqrun (b - a) a acc0 = (acc, None) /\ (forall k', a <= k' < b -> cells k' = wr k')
  | WExn e => seqrun (b - a) a acc0 = (acc, Some e)
  end.

Definition ended (s : @wstate E) : Prop := s = WEnd \/ exists e, s = WExn e.

Definition minv (m : @mstate E) (w : list (@wstate E)) : Prop :=
  match m with
  | MSpawn i => i <= length ranges /\ (forall j, i <= j -> j < length ranges -> nth_error w j = Some WNot) /\
      (forall j, j < i -> nth_error w j <> Some WNot)
  | MGet i => i <= length ranges /\ (forall j, j < length ranges -> nth_error w j <> Some WNot) /\
      (forall j, j < i -> nth_error w j = Some WEnd)
  | MJoin e i => i <= length ranges /\ (forall j, j < length ranges -> nth_error w j <> Some WNot) /\
      exists p, p < i /\ nth_error w p = Some (WExn e) /\ (forall j, j < p -> nth_error w j = Some WEnd) /\
      (forall j, j < i -> exists s, nth_error w j = Some s /\ ended s)
  | MRet => forall j, j < length ranges -> nth_error w j = Some WEnd
  | MThrew e => exists p, p < length ranges /\ nth_error w p = Some (WExn e) /\ (forall j, j < p -> nth_error w j = Some WEnd) /\
      (forall j, j < length ranges -> exists s, nth_error w j = Some s /\ ended s)
  end.

Definition cinv (c : @cfg A V E) : Prop :=
  length (c_w c) = length ranges /\ length (c_out c) = length out0 /\
  (forall i s acc, nth_error (c_w c) i = Some s -> nth_error (c_out c) i = Some acc -> winv i s acc (c_cells c)) /\
  minv (c_main c) (c_w c) /\
  (forall i, length ranges <= i -> nth_error (c_out c) i = nth_error out0 i) /\
  (forall k, (forall a b, In (a, b) ranges -> ~ (a <= k < b)) -> c_cells c k = cells0 k).

Lemma start_inv : cinv (start ranges out0 cells0).
Proof.
  unfold start, cinv; cbn. rewrite map_length. repeat split; auto; try lia.
  - intros i s acc H1 H2. rewrite nth_error_map in H1.
    destruct (nth_error ranges i) as [[a b]|] eqn:E1; [|discriminate]. cbn in H1. injection H1 as <-.
    exists a, b, acc. auto.
  - intros j _ Hj. rewrite nth_error_map. destruct (nth_error ranges j) eqn:E1; [reflexivity|].
    apply nth_error_None in E1. lia.
Qed.

Lemma nth_upd_cases : forall X (l : list X) i j v x, nth_error (upd l i v) j = Some x ->
  (i = j /\ x = v /\ i < length l) \/ (i <> j /\ nth_error l j = Some x).
Proof.
  intros X l i j v x H. destruct (Nat.eq_dec i j).
  - subst j. left. assert (i < length l).
    { destruct (Nat.lt_ge_cases i (length l)); auto.
      assert (nth_error (upd l i v) i = None) by (apply nth_error_None; rewrite upd_length; auto). congruence. }
    rewrite nth_error_upd_same in H by auto. injection H as <-. auto.
  - right. rewrite nth_error_upd_other in H by auto. auto.
Qed.

(** a running worker that moves does not disturb the main thread's invariant *)
Lemma minv_work : forall m w i k b s, minv m w -> nth_error w i = Some (WRun k b) -> s <> WNot -> minv m (upd w i s).
Proof.
  intros m w i k b s H Hi Hs.
  assert (Hl : i < length w) by (apply nth_error_Some; congruence).
  assert (Hne : forall j x, nth_error w j = Some x -> (forall k b, x <> WRun k b) -> nth_error (upd w i s) j = Some x).
  { intros j x Hj Hx. destruct (Nat.eq_dec i j); [subst j; exfalso; apply (Hx k b); congruence|].
    rewrite nth_error_upd_other; auto. }
  assert (Hnn : forall j, nth_error w j <> Some WNot -> nth_error (upd w i s) j <> Some WNot).
  { intros j Hj E1. apply nth_upd_cases in E1. destruct E1 as [(? & ? & _)|[? ?]]; subst; auto. }
  assert (Hen : forall x, ended x -> forall k b, x <> WRun k b).
  { intros x [->|[e ->]] k' b'; discriminate. }
  destruct m as [j|j|e j| |e]; cbn in *.
  - destruct H as (H1 & H2 & H3). split; [auto|]. split; [|auto]. intros q Hq1 Hq2. apply Hne; auto. discriminate.
  - destruct H as (H1 & H2 & H3). split; [auto|]. split; [auto|]. intros q Hq. apply Hne; auto. discriminate.
  - destruct H as (H1 & H2 & p & P1 & P2 & P3 & P4). split; [auto|]. split; [auto|]. exists p. repeat split; auto.
    + apply Hne; auto; discriminate.
    + intros q Hq. apply Hne; auto. discriminate.
    + intros q Hq. destruct (P4 q Hq) as (x & X1 & X2). exists x. split; auto.
  - intros q Hq. apply Hne; auto; discriminate.
  - destruct H as (p & P1 & P2 & P3 & P4). exists p. repeat split; auto.
    + apply Hne; auto; discriminate.
    + intros q Hq. apply Hne; auto. discriminate.
    + intros q Hq. destruct (P4 q Hq) as (x & X1 & X2). exists x. split; auto.
Qed.

Hypothesis Hdisj : forall i j a b a' b', i <> j -> nth_error ranges i = Some (a, b) -> nth_error ranges j = Some (a', b') ->
  b <= a' \/ b' <= a.

Lemma winv_cells : forall i s acc c k v a b, winv i s acc c -> nth_error ranges i = Some (a, b) ->
  ~ (a <= k < b) -> winv i s acc (set_cell c k v).
Proof.
  intros i s acc c k v a b (a0 & b0 & acc0 & H1 & H2 & H3) Hr Hk.
  assert (a0 = a /\ b0 = b) as [-> ->] by (split; congruence).
  exists a, b, acc0. split; auto. split; auto.
  destruct s; auto.
  - destruct H3 as (X1 & X2 & X3 & X4). repeat split; auto; try lia. intros k' Hk'. unfold set_cell.
    destruct (Nat.eqb_spec k' k); [subst; lia|auto].
  - destruct H3 as (X1 & X2). split; auto. intros k' Hk'. unfold set_cell.
    destruct (Nat.eqb_spec k' k); [subst; lia|auto].
Qed.

Lemma seqrun_unfold : forall b k acc, k < b -> seqrun (b - k) k acc =
  match body acc k with inl acc' => seqrun (b - S k) (S k) acc' | inr e => (acc, Some e) end.
Proof. intros b k acc H. replace (b - k) with (S (b - S k)) by lia. reflexivity. Qed.

Lemma step_inv : forall c c', pstep body wr ranges c c' -> cinv c -> cinv c'.
Proof.
  intros c c' H. destruct H; intros (I1 & I2 & I3 & I4 & I5 & I6); unfold cinv; cbn [c_main c_w c_out c_cells] in *.
  - (* spawn *)
    assert (Hi : i < length ranges) by (apply nth_error_Some; congruence).
    destruct I4 as (J1 & J2 & J3). rewrite upd_length. split; [exact I1|]. split; [exact I2|]. split; [|split; [|split; auto]].
    + intros j s acc Hj Ho. apply nth_upd_cases in Hj. destruct Hj as [(-> & -> & _)|[Hne Hj]]; [|apply I3; auto].
      destruct (I3 j WNot acc (J2 j (le_n _) Hi) Ho) as (a0 & b0 & acc0 & X1 & X2 & X3).
      exists a, b, acc0. split; auto. split; auto. subst acc.
      assert (a <= b) by (apply Hord; eapply nth_error_In; eauto).
      repeat split; auto. intros; lia.
    + cbn. split; [lia|]. split.
      * intros j Hj1 Hj2. rewrite nth_error_upd_other by lia. apply J2; lia.
      * intros j Hj E1. apply nth_upd_cases in E1. destruct E1 as [(_ & ? & _)|[Hne E1]]; [discriminate|].
        apply (J3 j); auto. lia.
  - (* spawned *)
    cbn in *. destruct I4 as (J1 & J2 & J3). repeat split; auto; try lia.
  - (* work *)
    assert (Hi : i < length w) by (apply nth_error_Some; congruence).
    assert (Hio : i < length o) by (apply nth_error_Some; congruence).
    rewrite !upd_length. split; [exact I1|]. split; [exact I2|].
    destruct (I3 i _ _ H H1) as (a0 & b0 & acc0 & X1 & X2 & X3 & X4 & X5 & X6). subst b.
    split; [|split; [|split]].
    + intros j s accj Hj Ho. apply nth_upd_cases in Hj. destruct Hj as [(-> & -> & _)|[Hne Hj]].
      * rewrite nth_error_upd_same in Ho by auto. injection Ho as <-.
        exists a0, b0, acc0. split; auto. split; auto. split; auto. split; [lia|].
        rewrite seqrun_unfold, H2 in X5 by auto. split; auto.
        intros k' Hk'. unfold set_cell. destruct (Nat.eqb_spec k' k); [subst; auto|apply X6; lia].
      * rewrite nth_error_upd_other in Ho by auto.
        assert (Hjr : exists aj bj, nth_error ranges j = Some (aj, bj)).
        { destruct (nth_error ranges j) as [[aj bj]|] eqn:E1; eauto. apply nth_error_None in E1.
          assert (j < length w) by (apply nth_error_Some; congruence). lia. }
        destruct Hjr as (aj & bj & Hjr).
        apply winv_cells with (a := aj) (b := bj); auto.
        destruct (Hdisj i j a0 b0 aj bj Hne X1 Hjr); lia.
    + apply minv_work with (k := k) (b := b0); auto. discriminate.
    + intros j Hj. rewrite nth_error_upd_other by lia. auto.
    + intros k' Hk'. unfold set_cell. destruct (Nat.eqb_spec k' k).
      * subst k'. exfalso. apply (Hk' a0 b0); [eapply nth_error_In; eauto|lia].
      * apply I6; auto.
  - (* throw *)
    rewrite upd_length. split; [exact I1|]. split; [exact I2|].
    destruct (I3 i _ _ H H1) as (a0 & b0 & acc0 & X1 & X2 & X3 & X4 & X5 & X6). subst b.
    split; [|split; [|split]]; auto.
    + intros j s accj Hj Ho. apply nth_upd_cases in Hj. destruct Hj as [(-> & -> & _)|[Hne Hj]]; [|auto].
      exists a0, b0, acc0. split; auto. split; auto.
      rewrite seqrun_unfold, H2 in X5 by auto. assert (accj = acc) by congruence. subst. auto.
    + apply minv_work with (k := k) (b := b0); auto. discriminate.
  - (* finish *)
    rewrite upd_length. split; [exact I1|]. split; [exact I2|].
    split; [|split; [|split]]; auto.
    + intros j s accj Hj Ho. apply nth_upd_cases in Hj. destruct Hj as [(-> & -> & _)|[Hne Hj]]; [|auto].
      destruct (I3 j _ _ H Ho) as (a0 & b0 & acc0 & X1 & X2 & X3 & X4 & X5 & X6). subst b.
      exists a0, b0, acc0. split; auto. split; auto.
      replace (b0 - k) with 0 in X5 by lia. cbn in X5. split; auto. intros; apply X6; lia.
    + apply minv_work with (k := k) (b := b); auto. discriminate.
  - (* get *)
    cbn in *. destruct I4 as (J1 & J2 & J3).
    assert (i < length ranges) by (rewrite <- I1; apply nth_error_Some; congruence).
    repeat split; auto; try lia. intros j Hj. destruct (Nat.eq_dec j i); [subst; auto|apply J3; lia].
  - (* get_exn *)
    cbn in *. destruct I4 as (J1 & J2 & J3).
    assert (i < length ranges) by (rewrite <- I1; apply nth_error_Some; congruence).
    repeat split; auto; try lia. exists i. repeat split; auto; try lia.
    intros j Hj. destruct (Nat.eq_dec j i); [subst; eexists; split; eauto; right; eauto|].
    exists WEnd. split; [apply J3; lia|left; auto].
  - (* return *)
    cbn in *. destruct I4 as (J1 & J2 & J3). repeat split; auto.
  - (* join *)
    cbn in *. destruct I4 as (J1 & J2 & p & P1 & P2 & P3 & P4).
    assert (i < length ranges) by (rewrite <- I1; apply nth_error_Some; congruence).
    repeat split; auto; try lia. exists p. repeat split; auto; try lia.
    intros j Hj. destruct (Nat.eq_dec j i); [subst; exists s; split; auto|apply P4; lia].
  - (* rethrow *)
    cbn in *. destruct I4 as (J1 & J2 & p & P1 & P2 & P3 & P4). repeat split; auto.
    exists p. repeat split; auto.
Qed.

Lemma steps_inv : forall c c', psteps body wr ranges c c' -> cinv c -> cinv c'.
Proof. intros c c' H; induction H; auto. intros; apply IHpsteps. eapply step_inv; eauto. Qed.

(** what job i does when run alone on its own output variable *)
Definition job_alone (i : nat) : option (A * option E) :=
  match nth_error ranges i, nth_error out0 i with
  | Some (a, b), Some acc => Some (seqrun (b - a) a acc)
  | _, _ => None
  end.

Lemma final_return : forall c, psteps body wr ranges (start ranges out0 cells0) c -> c_main c = MRet ->
  (forall i, i < length ranges -> exists acc, nth_error (c_out c) i = Some acc /\ job_alone i = Some (acc, None)) /\
  (forall i, length ranges <= i -> nth_error (c_out c) i = nth_error out0 i) /\
  length (c_out c) = length out0 /\
  (forall a b k, In (a, b) ranges -> a <= k < b -> c_cells c k = wr k) /\
  (forall k, (forall a b, In (a, b) ranges -> ~ (a <= k < b)) -> c_cells c k = cells0 k) /\
  (forall i s, nth_error (c_w c) i = Some s -> s = WEnd).
Proof.
  intros c H Hm. destruct (steps_inv _ _ H start_inv) as (I1 & I2 & I3 & I4 & I5 & I6).
  rewrite Hm in I4. cbn in I4. repeat split; auto.
  - intros i Hi. destruct (nth_error (c_out c) i) as [acc|] eqn:Eo.
    + exists acc. split; auto. destruct (I3 i WEnd acc (I4 i Hi) Eo) as (a & b & acc0 & X1 & X2 & X3 & X4).
      unfold job_alone. rewrite X1, X2, X3. reflexivity.
    + apply nth_error_None in Eo. lia.
  - intros a b k Hin Hk. apply In_nth_error in Hin. destruct Hin as (i & Hi).
    assert (Hil : i < length ranges) by (apply nth_error_Some; congruence).
    destruct (nth_error (c_out c) i) as [acc|] eqn:Eo; [|apply nth_error_None in Eo; lia].
    destruct (I3 i WEnd acc (I4 i Hil) Eo) as (a0 & b0 & acc0 & X1 & X2 & X3 & X4).
    apply X4. assert (a0 = a /\ b0 = b) as [-> ->] by (split; congruence). lia.
  - intros i s Hi. assert (i < length ranges) by (rewrite <- I1; apply nth_error_Some; congruence).
    rewrite I4 in Hi by auto. congruence.
Qed.

Lemma final_throw : forall c e, psteps body wr ranges (start ranges out0 cells0) c -> c_main c = MThrew e ->
  exists p acc, p < length ranges /\ job_alone p = Some (acc, Some e) /\
    (forall j, j < p -> exists accj, job_alone j = Some (accj, None)) /\
    (forall i s, nth_error (c_w c) i = Some s -> s = WEnd \/ exists e', s = WExn e').
Proof.
  intros c e H Hm. destruct (steps_inv _ _ H start_inv) as (I1 & I2 & I3 & I4 & I5 & I6).
  rewrite Hm in I4. cbn in I4. destruct I4 as (p & P1 & P2 & P3 & P4).
  destruct (nth_error (c_out c) p) as [acc|] eqn:Eo; [|apply nth_error_None in Eo; lia].
  exists p, acc. repeat split; auto.
  - destruct (I3 p _ acc P2 Eo) as (a & b & acc0 & X1 & X2 & X3).
    unfold job_alone. rewrite X1, X2, X3. reflexivity.
  - intros j Hj. destruct (nth_error (c_out c) j) as [accj|] eqn:Ej; [|apply nth_error_None in Ej; lia].
    exists accj. destruct (I3 j _ accj (P3 j Hj) Ej) as (a & b & acc0 & X1 & X2 & X3 & X4).
    unfold job_alone. rewrite X1, X2, X3. reflexivity.
  - intros i s Hi. assert (i < length ranges) by (rewrite <- I1; apply nth_error_Some; congruence).
    destruct (P4 i H0) as (s' & S1 & S2). assert (s = s') by congruence. subst. exact S2.
Qed.

(** ** progress and termination *)
Definition is_final (c : @cfg A V E) : Prop := c_main c = MRet \/ exists e, c_main c = MThrew e.

Lemma worker_progress : forall c i k b, cinv c -> nth_error (c_w c) i = Some (WRun k b) ->
  exists c', pstep body wr ranges c c'.
Proof.
  intros [m w o cl] i k b (I1 & I2 & I3 & _) Hi. cbn in *.
  assert (i < length ranges) by (rewrite <- I1; apply nth_error_Some; congruence).
  destruct (Nat.lt_ge_cases k b).
  - destruct (nth_error o i) as [acc|] eqn:Eo; [|apply nth_error_None in Eo; lia].
    destruct (body acc k) eqn:Eb; eexists; [eapply ps_work|eapply ps_throw]; eauto.
  - eexists. eapply ps_finish; eauto.
Qed.

Lemma progress : forall c, cinv c -> is_final c \/ exists c', pstep body wr ranges c c'.
Proof.
  intros c HI. pose proof HI as (I1 & I2 & I3 & I4 & _).
  destruct c as [m w o cl]; cbn in *. destruct m as [i|i|e i| |e].
  - right. destruct I4 as (J1 & J2 & J3). destruct (nth_error ranges i) as [[a b]|] eqn:Er.
    + eexists. apply ps_spawn; eauto.
    + apply nth_error_None in Er. replace i with (length ranges) by lia. eexists. apply ps_spawned.
  - right. destruct I4 as (J1 & J2 & J3).
    destruct (Nat.eq_dec i (length ranges)); [subst; eexists; apply ps_return|].
    destruct (nth_error w i) as [s|] eqn:Ew; [|apply nth_error_None in Ew; lia].
    destruct s as [|k b| |e].
    + exfalso. apply (J2 i); auto; lia.
    + eapply (worker_progress (mkCfg (MGet i) w o cl)); eauto.
    + eexists. apply ps_get; auto.
    + eexists. eapply ps_get_exn; eauto.
  - right. destruct I4 as (J1 & J2 & p & P1 & P2 & P3 & P4).
    destruct (Nat.eq_dec i (length ranges)); [subst; eexists; apply ps_rethrow|].
    destruct (nth_error w i) as [s|] eqn:Ew; [|apply nth_error_None in Ew; lia].
    destruct s as [|k b| |e'].
    + exfalso. apply (J2 i); auto; lia.
    + eapply (worker_progress (mkCfg (MJoin e i) w o cl)); eauto.
    + eexists. eapply ps_join; eauto.
    + eexists. eapply ps_join; eauto.
  - left. left. reflexivity.
  - left. right. exists e. reflexivity.
Qed.

Definition wmeas (r : nat * nat) (s : @wstate E) : nat :=
  match s with WNot => 2 + (snd r - fst r) | WRun k b => 1 + (b - k) | _ => 0 end.
Fixpoint wsum (rs : list (nat * nat)) (w : list (@wstate E)) : nat :=
  match rs, w with r :: rs', s :: w' => wmeas r s + wsum rs' w' | _, _ => 0 end.
Definition mmeas (m : @mstate E) : nat :=
  match m with
  | MSpawn i => 3 + (length ranges - i) + length ranges
  | MGet i => 2 + (length ranges - i)
  | MJoin _ i => 1 + (length ranges - i)
  | _ => 0
  end.
Definition meas (c : @cfg A V E) : nat := mmeas (c_main c) + wsum ranges (c_w c).

Lemma wsum_upd : forall rs w i r s s', nth_error rs i = Some r -> nth_error w i = Some s ->
  wsum rs (upd w i s') + wmeas r s = wsum rs w + wmeas r s'.
Proof.
  induction rs as [|r0 rs IH]; intros [|s0 w] [|i] r s s' H1 H2; try discriminate; cbn in *.
  - injection H1 as <-. injection H2 as <-. lia.
  - specialize (IH w i r s s' H1 H2). lia.
Qed.

Lemma step_meas : forall c c', cinv c -> pstep body wr ranges c c' -> meas c' < meas c.
Proof.
  intros c c' (I1 & I2 & I3 & I4 & _) H.
  assert (Hr : forall i s, nth_error (c_w c) i = Some s -> exists r, nth_error ranges i = Some r).
  { intros i s Hs. destruct (nth_error ranges i) eqn:E1; eauto. apply nth_error_None in E1.
    assert (i < length (c_w c)) by (apply nth_error_Some; congruence). lia. }
  destruct H; unfold meas; cbn [c_main c_w mmeas] in *.
  - destruct I4 as (J1 & J2 & J3). assert (i < length ranges) by (apply nth_error_Some; congruence).
    pose proof (wsum_upd ranges w i (a, b) WNot (WRun a b) H (J2 i (le_n _) H0)) as X. cbn in X. lia.
  - lia.
  - destruct (Hr _ _ H) as (r & Er). pose proof (wsum_upd ranges w i r _ (WRun (S k) b) Er H) as X. cbn [wmeas] in X. lia.
  - destruct (Hr _ _ H) as (r & Er). pose proof (wsum_upd ranges w i r _ (WExn e) Er H) as X. cbn [wmeas] in X. lia.
  - destruct (Hr _ _ H) as (r & Er). pose proof (wsum_upd ranges w i r _ WEnd Er H) as X. cbn [wmeas] in X. lia.
  - assert (i < length w) by (apply nth_error_Some; congruence). lia.
  - assert (i < length w) by (apply nth_error_Some; congruence). lia.
  - lia.
  - assert (i < length w) by (apply nth_error_Some; congruence). lia.
  - lia.
Qed.

Lemma psteps_trans : forall c1 c2 c3, psteps body wr ranges c1 c2 -> psteps body wr ranges c2 c3 -> psteps body wr ranges c1 c3.
Proof. intros c1 c2 c3 H; induction H; auto. intros; econstructor; eauto. Qed.

(** from every reachable configuration a final one is reached, and no run is longer than [meas] *)
Lemma reach_final : forall n c, meas c <= n -> cinv c -> exists c', psteps body wr ranges c c' /\ is_final c'.
Proof.
  induction n as [|n IH]; intros c Hn HI.
  - destruct (progress c HI) as [F|(c' & Hs)]; [exists c; split; auto; constructor|].
    pose proof (step_meas _ _ HI Hs). lia.
  - destruct (progress c HI) as [F|(c' & Hs)]; [exists c; split; auto; constructor|].
    pose proof (step_meas _ _ HI Hs).
    destruct (IH c') as (c2 & S2 & F2); [lia|eapply step_inv; eauto|].
    exists c2. split; auto. econstructor; eauto.
Qed.

Lemma terminates : forall c, cinv c -> Acc (fun y x => pstep body wr ranges x y) c.
Proof.
  intros c. remember (meas c) as n. assert (Hn : meas c <= n) by lia. clear Heqn. revert c Hn.
  induction n as [|n IH]; intros c Hn HI; constructor; intros c' Hs; pose proof (step_meas _ _ HI Hs).
  - lia.
  - apply IH; [lia|eapply step_inv; eauto].
Qed.
End Conc.
