(** * SparseBlockMatrix: vector products, scaling, slices, permutation *)
From Coq Require Import Arith Lia List Bool Sorting.Sorted FinFun.
From Verif Require Import Lib_Ring Lib_Res CCM_Model CCM_Proofs CCM_Proofs2 SBM_Model SBM_Spec SBM_Proofs SBM_Proofs2.
Import ListNotations.

Section Ops3.
  Context {K : Type} {R : CRing K}.
  Add Ring Kring3 : (@kring K R).
  Notation sbm := (sbm K). Notation bmap := (bmap K).

  Lemma seg_loop : forall (X : Type) l (k : X -> nat) (v : X -> vec K) br i (L : list X) y, layout_ok l -> (forall x, In x L -> k x < length l) -> br < length l -> i < bsize l br ->
    fold_left (fun y x => seg_add y (base l (k x)) (bsize l (k x)) (v x)) L y (base l br + i) = kadd (y (base l br + i)) (lsum L (fun x => if br =? k x then v x i else k0)).
  Proof.
    intros X l k v br i L. induction L as [|x L IH]; intros y Lo H Hb Hi; cbn [fold_left lsum]; [ring|]. rewrite IH by (auto; intros; apply H; right; auto).
    unfold seg_add at 1. rewrite tile_test by (auto; apply H; left; auto). rewrite (Nat.eqb_sym (k x) br). destruct (Nat.eqb_spec br (k x)) as [->|N]; [|ring].
    replace (base l (k x) + i - base l (k x)) with i by lia. ring.
  Qed.
  Lemma seg_loop_out : forall (X : Type) l (k : X -> nat) (v : X -> vec K) p (L : list X) y, layout_ok l -> (forall x, In x L -> k x < length l) -> total l <= p ->
    fold_left (fun y x => seg_add y (base l (k x)) (bsize l (k x)) (v x)) L y p = y p.
  Proof.
    intros X l k v p L. induction L as [|x L IH]; intros y Lo H Hp; cbn [fold_left]; auto. rewrite IH by (auto; intros; apply H; right; auto). unfold seg_add.
    assert (k x < length l) by (apply H; left; auto). pose proof (base_mono l (S (k x)) (length l) Lo ltac:(lia) ltac:(lia)) as M. rewrite <- total_base in M. rewrite base_S in M by auto.
    rewrite (proj2 (Nat.ltb_ge p (base l (k x) + bsize l (k x)))) by lia. rewrite Bool.andb_false_r. auto.
  Qed.
  Lemma axpy_ok : forall (m : sbm) A src y p, well_formed m -> stands_for m A -> p < total (s_rbi m) ->
    axpy_loop m src y p = kadd (y p) (mvmul (total (s_cbi m)) A src p).
  Proof.
    intros m A src y p W S Hp. rewrite total_base in Hp. destruct (tile_exists _ _ _ (wf_rows _ W) (le_n _) Hp) as (br & i & B1 & B2 & ->). unfold axpy_loop. cbv zeta.
    rewrite (seg_loop _ (s_rbi m) (fun e : nat * nat * mat K => fst (fst e)) (fun e => mvmul (bsize (s_cbi m) (snd (fst e))) (snd e) (fun t => src (base (s_cbi m) (snd (fst e)) + t))));
      auto; [|apply W|intros e H; apply entry_range; auto]. f_equal.
    rewrite (lsum_entries m (fun r c B => if br =? r then mvmul (bsize (s_cbi m) c) B (fun t => src (base (s_cbi m) c + t)) i else k0)) by auto.
    unfold mvmul at 2. rewrite total_base, ksum_tile by (auto; apply W). apply ksum_ext. intros c Hc.
    transitivity (ksum (length (s_rbi m)) (fun r => if br =? r then mvmul (bsize (s_cbi m) c) (blk m r c) (fun t => src (base (s_cbi m) c + t)) i else k0)).
    { apply ksum_ext. intros r Hr. unfold blk. destruct (get m r c), (br =? r); auto. symmetry. apply ksum_zero. intros; ring. }
    rewrite (ksum_pick _ br (fun r => mvmul (bsize (s_cbi m) c) (blk m r c) (fun t => src (base (s_cbi m) c + t)) i)) by auto.
    apply ksum_ext. intros t Ht. rewrite S by auto. auto.
  Qed.
  Lemma atxpy_ok : forall (m : sbm) A src y p, well_formed m -> stands_for m A -> p < total (s_cbi m) ->
    atxpy_loop m src y p = kadd (y p) (mvmul (total (s_rbi m)) (mtr A) src p).
  Proof.
    intros m A src y p W S Hp. rewrite total_base in Hp. destruct (tile_exists _ _ _ (wf_cols _ W) (le_n _) Hp) as (bc & j & B1 & B2 & ->). unfold atxpy_loop. cbv zeta.
    rewrite (seg_loop _ (s_cbi m) (fun e : nat * nat * mat K => snd (fst e)) (fun e => mvmul (bsize (s_rbi m) (fst (fst e))) (mtr (snd e)) (fun t => src (base (s_rbi m) (fst (fst e)) + t))));
      auto; [|apply W|intros e H; apply entry_range; auto]. f_equal.
    rewrite (lsum_entries m (fun r c B => if bc =? c then mvmul (bsize (s_rbi m) r) (mtr B) (fun t => src (base (s_rbi m) r + t)) j else k0)) by auto.
    transitivity (ksum (length (s_cbi m)) (fun c => if bc =? c then ksum (length (s_rbi m)) (fun r => mvmul (bsize (s_rbi m) r) (mtr (blk m r c)) (fun t => src (base (s_rbi m) r + t)) j) else k0)).
    { apply ksum_ext. intros c Hc. destruct (bc =? c).
      - apply ksum_ext. intros r Hr. unfold blk. destruct (get m r c); auto. symmetry. apply ksum_zero. intros; unfold mtr; ring.
      - apply ksum_zero. intros r Hr. destruct (get m r c); auto. }
    rewrite (ksum_pick _ bc (fun c => ksum (length (s_rbi m)) (fun r => mvmul (bsize (s_rbi m) r) (mtr (blk m r c)) (fun t => src (base (s_rbi m) r + t)) j))) by auto.
    unfold mvmul at 2. rewrite total_base, ksum_tile by (auto; apply W). apply ksum_ext. intros r Hr. apply ksum_ext. intros t Ht. unfold mtr. rewrite S by auto. auto.
  Qed.

  (** blockwise changes *)
  Lemma map_blocks : forall (h : mat K -> mat K) (m : sbm), well_formed m ->
    let m' := set_cols m (map (map (fun e => (fst e, h (snd e)))) (s_cols m)) in
    well_formed m' /\ s_storage m' = s_storage m /\ s_rbi m' = s_rbi m /\ s_cbi m' = s_cbi m /\ forall r c, get m' r c = option_map h (get m r c).
  Proof.
    intros h m W m'. assert (N : forall c, nth c (s_cols m') [] = map (fun e => (fst e, h (snd e))) (nth c (s_cols m) [])).
    { intros c. unfold m'. cbn [set_cols s_cols]. change (@nil (nat * mat K)) with (map (fun e : nat * mat K => (fst e, h (snd e))) []) at 1. apply map_nth. }
    assert (W' : well_formed m').
    { destruct W as [W1 W2 W3 W4 W5]. constructor; cbn [m' set_cols s_rbi s_cbi]; auto.
      - unfold m'. cbn [set_cols s_cols]. rewrite map_length. auto.
      - intros c. rewrite N, map_map. cbn [fst].
        apply W4.
      - intros c r B. rewrite N. intros H.
        apply in_map_iff in H. destruct H as ([k V] & E & H). injection E as <- _. cbn [fst]. eapply W5; eauto. }
    split; auto. split; auto. split; auto. split; auto. intros r c. unfold get. rewrite N. generalize (nth c (s_cols m) []). intros l. induction l as [|[k V] l IH]; cbn [map find fst snd]; auto.
    destruct (r =? k); auto.
  Qed.
  Lemma scale_ok : forall (m : sbm) rbi cbi A a, represents m rbi cbi A -> represents (scale a m) rbi cbi (mscale a A).
  Proof.
    intros m rbi cbi A a Rm. destruct (represents_good _ _ _ _ Rm) as ((W & S & E1 & E2) & Sm). destruct (map_blocks (mscale a) m W) as (W' & S' & E1' & E2' & N).
    apply good_represents; [split; [exact W'|]; unfold scale; cbn [set_cols s_storage s_rbi s_cbi]; auto|]. intros br bc i j H1 H2 H3 H4. unfold mscale at 1. rewrite Sm by auto.
    unfold blk. unfold scale. rewrite N. destruct (get m br bc); cbn [option_map]; auto. ring.
  Qed.
  Lemma clear_ok : forall (m : sbm) rbi cbi A dealloc, represents m rbi cbi A -> represents (clear dealloc m) rbi cbi (fun _ _ => k0) /\
    (dealloc = true -> forall r c, get (clear dealloc m) r c = None) /\ (dealloc = false -> forall r c, get (clear dealloc m) r c = None <-> get m r c = None).
  Proof.
    intros m rbi cbi A dealloc Rm. destruct (represents_good _ _ _ _ Rm) as ((W & S & E1 & E2) & Sm). unfold clear. rewrite S. cbn [andb]. destruct dealloc.
    - assert (N : forall c, nth c (map (fun _ : bmap => @nil (nat * mat K)) (s_cols m)) [] = []).
      { intros c. generalize (s_cols m). intros l. revert c. induction l as [|x l IH]; intros [|c]; cbn; auto. }
      assert (G : forall r c, get (set_cols m (map (fun _ : bmap => []) (s_cols m))) r c = None) by (intros; unfold get; cbn [set_cols s_cols]; rewrite N; auto).
      split; [|split; [auto|discriminate]]. apply good_represents.
      + split; auto. destruct W as [W1 W2 W3 W4 W5]. constructor; cbn [set_cols s_rbi s_cbi s_cols]; auto.
        * rewrite map_length; auto.
        * intros c. rewrite N. constructor.
        * intros c r B. rewrite N. intros [].
      + intros. rewrite blk_none; auto.
    - destruct (map_blocks (fun _ => zeroM) m W) as (W' & S' & E1' & E2' & N). cbn [snd] in *.
      split; [|split; [discriminate|]].
      + apply good_represents; [split; [exact W'|auto]|]. intros. unfold blk. rewrite N. destruct (get m br bc); reflexivity.
      + intros _ r c. rewrite N. destruct (get m r c); cbn; split; auto; discriminate.
  Qed.
  Lemma clone_ok : forall (m : sbm) A, well_formed m -> stands_for m A -> represents (clone m) (s_rbi m) (s_cbi m) A.
  Proof. intros m A [W1 W2 W3 W4 W5] S. split; [constructor; auto|]. split; auto. Qed.

  Lemma scale_clear_clone : forall (m : sbm) rbi cbi A, represents m rbi cbi A ->
    (forall a, represents (scale a m) rbi cbi (mscale a A)) /\ (forall dealloc, represents (clear dealloc m) rbi cbi (fun _ _ => k0)) /\
    (forall r c, get (clear true m) r c = None) /\ (forall r c, get (clear false m) r c = None <-> get m r c = None) /\ represents (clone m) rbi cbi A.
  Proof.
    intros m rbi cbi A Rm. split; [intros; apply scale_ok; auto|]. split; [intros; eapply clear_ok; eauto|]. split; [eapply (clear_ok m rbi cbi A true); auto|].
    split; [eapply (clear_ok m rbi cbi A false); auto|]. destruct Rm as (W & S & <- & <- & St). apply clone_ok; auto.
  Qed.
  Lemma vectors_ok : forall (m : sbm) A (x y : vec K), well_formed m -> stands_for m A ->
    (forall p, p < total (s_rbi m) -> multiplyVec m x p = mvmul (total (s_cbi m)) A x p /\ multiplyPtr m None x p = mvmul (total (s_cbi m)) A x p /\
       multiplyPtr m (Some y) x p = kadd (y p) (mvmul (total (s_cbi m)) A x p)) /\
    (forall q, q < total (s_cbi m) -> rightMultiplyVec m x q = mvmul (total (s_rbi m)) (mtr A) x q /\ rightMultiplyPtr m None x q = mvmul (total (s_rbi m)) (mtr A) x q /\
       rightMultiplyPtr m (Some y) x q = kadd (y q) (mvmul (total (s_rbi m)) (mtr A) x q)).
  Proof.
    intros m A x y W S. unfold multiplyVec, multiplyPtr, rightMultiplyVec, rightMultiplyPtr. split.
    - intros p Hp. rewrite !(axpy_ok m A) by auto. split; [ring|]. split; [ring|auto].
    - intros p Hp. rewrite !(atxpy_ok m A) by auto. split; [ring|]. split; [ring|auto].
  Qed.

  (** slices *)
  Lemma running_length : forall l acc, length (running acc l) = length l. Proof. induction l; intros; cbn; auto. Qed.
  Lemma running_nth : forall l acc k, k < length l -> nth k (running acc l) 0 = base (running acc l) k + (if k =? 0 then acc else 0) + nth k l 0.
  Proof.
    induction l as [|x l IH]; intros acc k H; [cbn in H; lia|]. destruct k as [|k]; cbn [running nth base Nat.eqb]; [lia|]. cbn in H. rewrite IH by lia. destruct k; cbn [base Nat.eqb nth]; lia.
  Qed.
  Lemma running_ok : forall l, layout_ok (running 0 l) /\ forall b, b < length l -> bsize (running 0 l) b = nth b l 0.
  Proof.
    intros l. split.
    - intros b H. rewrite running_length in H. rewrite (running_nth l 0 (S b)) by auto. cbn [base Nat.eqb]. lia.
    - intros b H. unfold bsize. rewrite running_nth by auto. destruct b; cbn [Nat.eqb base]; lia.
  Qed.
  Lemma running_base : forall L a n k, layout_ok L -> k <= n -> a + n <= length L -> base (running 0 (map (bsize L) (seq a n))) k + base L a = base L (a + k).
  Proof.
    intros L a n k Lo. induction k as [|k IH]; intros H1 H2; [cbn [base]; rewrite Nat.add_0_r; auto|].
    destruct (running_ok (map (bsize L) (seq a n))) as (RL & RS). rewrite base_S by (auto; rewrite running_length, map_length, seq_length; lia).
    rewrite RS by (rewrite map_length, seq_length; lia). rewrite (nth_indep _ 0 (bsize L 0)) by (rewrite map_length, seq_length; lia). rewrite map_nth, seq_nth by lia.
    rewrite Nat.add_succ_r, base_S by (auto; lia). specialize (IH ltac:(lia) H2). lia.
  Qed.
  Lemma slice_size : forall L a n k, k < n -> bsize (running 0 (map (bsize L) (seq a n))) k = bsize L (a + k).
  Proof.
    intros L a n k H. destruct (running_ok (map (bsize L) (seq a n))) as (RL & RS). rewrite RS by (rewrite map_length, seq_length; lia).
    rewrite (nth_indep _ 0 (bsize L 0)) by (rewrite map_length, seq_length; lia). rewrite map_nth, seq_nth by lia. auto.
  Qed.
  Lemma slice_find : forall rmin rmax (c : bmap) r, r < rmax - rmin -> find r (slice_col rmin rmax c) = find (rmin + r) c.
  Proof.
    intros rmin rmax c r H. unfold slice_col. induction c as [|[k V] c IH]; cbn [filter map find fst snd]; auto.
    destruct (Nat.leb_spec rmin k), (Nat.ltb_spec k rmax); cbn [andb map find fst snd]; rewrite IH; destruct (Nat.eqb_spec (rmin + r) k), (Nat.eqb_spec r (k - rmin)); auto; lia.
  Qed.
  Lemma slice_keys : forall rmin rmax (c : bmap), StronglySorted lt (map fst c) -> StronglySorted lt (map fst (slice_col rmin rmax c)).
  Proof.
    intros rmin rmax c. unfold slice_col. induction c as [|[k V] c IH]; cbn [filter map fst]; intros S; [constructor|]. apply StronglySorted_inv in S. destruct S as [S F].
    destruct (Nat.leb_spec rmin k), (Nat.ltb_spec k rmax); cbn [andb map fst]; auto. constructor; auto. apply Forall_forall. intros x Hx. rewrite map_map in Hx. apply in_map_iff in Hx.
    destruct Hx as ([k2 V2] & <- & Hx). cbn [fst]. apply filter_In in Hx. destruct Hx as (H1 & H2). cbn [fst] in H2. apply andb_true_iff in H2. destruct H2 as (H2 & H3).
    apply Nat.leb_le in H2. rewrite Forall_forall in F. assert (k < k2) by (apply F; change k2 with (fst (k2, V2)); apply in_map; auto). lia.
  Qed.
  Lemma slice_ok : forall (m : sbm) A rmin rmax cmin cmax, well_formed m -> stands_for m A -> rmin < rmax -> cmin < cmax -> rmax <= length (s_rbi m) -> cmax <= length (s_cbi m) ->
    exists d rbi cbi, slice m rmin rmax cmin cmax = Ok d /\ represents d rbi cbi (fun p q => A (base (s_rbi m) rmin + p) (base (s_cbi m) cmin + q)) /\
      length rbi = rmax - rmin /\ length cbi = cmax - cmin /\ (forall k, k < rmax - rmin -> bsize rbi k = bsize (s_rbi m) (rmin + k)) /\ (forall k, k < cmax - cmin -> bsize cbi k = bsize (s_cbi m) (cmin + k)).
  Proof.
    intros m A rmin rmax cmin cmax W S H1 H2 H3 H4. unfold slice. rewrite (proj2 (Nat.ltb_lt _ _) H1), (proj2 (Nat.ltb_lt _ _) H2), (proj2 (Nat.leb_le _ _) H3), (proj2 (Nat.leb_le _ _) H4).
    cbn [andb]. set (rbi := running 0 (map (bsize (s_rbi m)) (seq rmin (rmax - rmin)))). set (cbi := running 0 (map (bsize (s_cbi m)) (seq cmin (cmax - cmin)))).
    set (cs := map (fun mc => slice_col rmin rmax (nth mc (s_cols m) [])) (seq cmin (cmax - cmin))).
    assert (Lr : length rbi = rmax - rmin) by (unfold rbi; rewrite running_length, map_length, seq_length; auto).
    assert (Lc : length cbi = cmax - cmin) by (unfold cbi; rewrite running_length, map_length, seq_length; auto).
    assert (N : forall c, c < cmax - cmin -> nth c cs [] = slice_col rmin rmax (nth (cmin + c) (s_cols m) [])).
    { intros c Hc. unfold cs. rewrite (nth_indep _ [] (slice_col rmin rmax (nth 0 (s_cols m) []))) by (rewrite map_length, seq_length; auto).
      rewrite (map_nth (fun mc => slice_col rmin rmax (nth mc (s_cols m) []))), seq_nth; auto. }
    assert (Ls : length cs = cmax - cmin) by (unfold cs; rewrite map_length, seq_length; auto).
    exists (mkSbm rbi cbi cs true), rbi, cbi. split; auto. split.
    - apply good_represents.
      + split; [|auto]. constructor; cbn [s_rbi s_cbi s_cols].
        * apply running_ok.
        * apply running_ok.
        * congruence.
        * intros c. destruct (Nat.lt_ge_cases c (cmax - cmin)) as [L|L]; [rewrite N by auto; apply slice_keys; apply (wf_keys _ W)|rewrite nth_overflow by lia; constructor].
        * intros c r B. destruct (Nat.lt_ge_cases c (cmax - cmin)) as [L|L]; [rewrite N by auto|rewrite nth_overflow by lia; intros []].
          intros H. apply in_map_iff in H. destruct H as ([k V] & E & H). injection E as <- _. apply filter_In in H. destruct H as (_ & H). cbn [fst] in *. apply andb_true_iff in H.
          destruct H as (Q1 & Q2). apply Nat.leb_le in Q1. apply Nat.ltb_lt in Q2. lia.
      + intros br bc i j B1 B2 B3 B4. rewrite Lr in B1. rewrite Lc in B2. unfold rbi, cbi in B3, B4. rewrite slice_size in B3, B4 by auto.
        replace (base (s_rbi m) rmin + (base rbi br + i)) with (base (s_rbi m) (rmin + br) + i) by (unfold rbi; rewrite <- (running_base (s_rbi m) rmin (rmax - rmin) br); [lia|apply W|lia|lia]).
        replace (base (s_cbi m) cmin + (base cbi bc + j)) with (base (s_cbi m) (cmin + bc) + j) by (unfold cbi; rewrite <- (running_base (s_cbi m) cmin (cmax - cmin) bc); [lia|apply W|lia|lia]).
        rewrite S by (auto; lia). unfold blk, get. cbn [s_cols]. rewrite N by auto. rewrite slice_find by auto. auto.
    - split; auto. split; auto. split; intros; apply slice_size; auto.
  Qed.
  Lemma slice_bad : forall (m : sbm) rmin rmax cmin cmax, rmax <= rmin \/ cmax <= cmin -> slice m rmin rmax cmin cmax = UB.
  Proof. intros m rmin rmax cmin cmax H. unfold slice. destruct (Nat.ltb_spec rmin rmax), (Nat.ltb_spec cmin cmax); cbn [andb]; auto; lia. Qed.
End Ops3.
