(** * Proofs about SparseBlockMatrix *)
From Coq Require Import Arith Lia List Bool Sorting.Sorted.
From Verif Require Import Lib_Ring Lib_Res CCM_Model CCM_Proofs SBM_Model SBM_Spec.
Import ListNotations.

(** ** layouts *)
Lemma base_S : forall l b, layout_ok l -> b < length l -> base l (S b) = base l b + bsize l b.
Proof. intros l b L H. unfold bsize. cbn [base]. destruct b as [|b]; cbn [base]; [lia|]. specialize (L b H). lia. Qed.
Lemma total_base : forall l, total l = base l (length l).
Proof.
  intros l. unfold total. destruct (length l) as [|n] eqn:E; [destruct l; [auto|discriminate]|]. cbn [base].
  destruct l as [|x l] using rev_ind; [discriminate|]. rewrite app_length in E. cbn in E. rewrite last_last.
  rewrite app_nth2 by lia. replace (n - length l) with 0 by lia. auto.
Qed.
Lemma base_mono : forall l a b, layout_ok l -> a <= b -> b <= length l -> base l a <= base l b.
Proof.
  intros l a b L H. induction H as [|b H IH]; auto. intros Hb. rewrite base_S by (auto; lia). specialize (IH ltac:(lia)). lia.
Qed.
Lemma tile_unique : forall l a b i j, layout_ok l -> a < length l -> b < length l -> i < bsize l a -> j < bsize l b -> base l a + i = base l b + j -> a = b /\ i = j.
Proof.
  intros l a b i j L Ha Hb Hi Hj E. destruct (Nat.lt_trichotomy a b) as [G|[G|G]].
  - pose proof (base_mono l (S a) b L ltac:(lia) ltac:(lia)). rewrite base_S in H by auto. lia.
  - subst. split; auto. lia.
  - pose proof (base_mono l (S b) a L ltac:(lia) ltac:(lia)). rewrite base_S in H by auto. lia.
Qed.
Lemma tile_exists : forall l r n, layout_ok l -> n <= length l -> r < base l n -> exists b i, b < n /\ i < bsize l b /\ r = base l b + i.
Proof.
  intros l r n L. induction n as [|n IH]; intros Hn H; [cbn in H; lia|]. destruct (Nat.lt_ge_cases r (base l n)) as [G|G].
  - destruct (IH ltac:(lia) G) as (b & i & B1 & B2 & B3). exists b, i. split; [lia|auto].
  - rewrite base_S in H by (auto; lia). exists n, (r - base l n). split; [lia|]. split; lia.
Qed.
Lemma tile_in : forall l b i, layout_ok l -> b < length l -> i < bsize l b -> base l b + i < total l.
Proof. intros l b i L H Hi. rewrite total_base. pose proof (base_mono l (S b) (length l) L ltac:(lia) ltac:(lia)). rewrite base_S in H0 by auto. lia. Qed.
Lemma tile_test : forall l a b i, layout_ok l -> a < length l -> b < length l -> i < bsize l b ->
  (base l a <=? base l b + i) && (base l b + i <? base l a + bsize l a) = (a =? b).
Proof.
  intros l a b i L Ha Hb Hi. destruct (Nat.eqb_spec a b) as [->|N].
  - rewrite (proj2 (Nat.leb_le _ _)), (proj2 (Nat.ltb_lt _ _)) by lia. auto.
  - destruct (Nat.leb_spec (base l a) (base l b + i)), (Nat.ltb_spec (base l b + i) (base l a + bsize l a)); auto. exfalso.
    destruct (tile_unique l a b (base l b + i - base l a) i L Ha Hb); lia.
Qed.

Lemma upper_lower : forall fuel f a n r, upper_bound fuel f a n r = lower_bound fuel f a n (r + 1).
Proof.
  induction fuel as [|fuel IH]; intros f a n r; cbn [upper_bound lower_bound]; auto. destruct (n =? 0); auto. cbv zeta.
  destruct (Nat.ltb_spec r (f (a + n / 2))), (Nat.ltb_spec (f (a + n / 2)) (r + 1)); try lia; apply IH.
Qed.
Lemma layout_nth : forall l a b, layout_ok l -> a <= b -> b < length l -> nth a l 0 <= nth b l 0.
Proof. intros l a b L H Hb. apply (base_mono l (S a) (S b)); auto; lia. Qed.
Lemma upper_bound_ok : forall l b i, layout_ok l -> b < length l -> i < bsize l b -> upper_bound (length l) (fun k => nth k l 0) 0 (length l) (base l b + i) = b.
Proof.
  intros l b i L Hb Hi. rewrite upper_lower. pose proof (lower_bound_spec (length l) (fun k => nth k l 0) 0 (length l) (base l b + i + 1) (le_n _)) as H.
  cbv zeta in H. set (p := lower_bound _ _ _ _ _) in *. destruct H as (H1 & H2 & H3).
  { intros p0 q H4 H5 H6. cbn beta. apply layout_nth; auto; lia. }
  pose proof (base_S l b L Hb) as BS. cbn [base] in BS.
  destruct (Nat.lt_trichotomy p b) as [G|[G|G]]; auto.
  - specialize (H3 p ltac:(lia)). pose proof (base_mono l (S p) b L ltac:(lia) ltac:(lia)). cbn [base] in H. cbn beta in H3. lia.
  - specialize (H2 b ltac:(lia)). cbn beta in H2. lia.
Qed.

(** ** block maps *)
Section Maps.
  Context {K : Type} {R : CRing K}.
  Add Ring Kring : (@kring K R).
  Notation sbm := (sbm K). Notation bmap := (bmap K).

  Lemma find_put_same : forall (c : bmap) r B, find r (put r B c) = Some B.
  Proof.
    induction c as [|[k B'] c IH]; intros r B; cbn [put find]; [rewrite Nat.eqb_refl; auto|].
    destruct (Nat.eqb_spec r k) as [->|N]; cbn [find]; [rewrite Nat.eqb_refl; auto|].
    destruct (r <? k); cbn [find]; [rewrite Nat.eqb_refl; auto|]. rewrite (proj2 (Nat.eqb_neq r k)) by auto. auto.
  Qed.
  Lemma find_put_other : forall (c : bmap) r r' B, r' <> r -> find r' (put r B c) = find r' c.
  Proof.
    induction c as [|[k B'] c IH]; intros r r' B N; cbn [put find]; [rewrite (proj2 (Nat.eqb_neq r' r)); auto|].
    destruct (Nat.eqb_spec r k) as [->|N2]; cbn [find]; [rewrite (proj2 (Nat.eqb_neq r' k)); auto|].
    destruct (r <? k); cbn [find]; [rewrite (proj2 (Nat.eqb_neq r' r)); auto|]. destruct (r' =? k); auto.
  Qed.
  Lemma put_in : forall (c : bmap) r B k V, In (k, V) (put r B c) -> (k = r /\ V = B) \/ In (k, V) c.
  Proof.
    induction c as [|[k0 B'] c IH]; intros r B k V H; cbn [put] in H.
    - destruct H as [H|[]]. injection H as <- <-. auto.
    - destruct (Nat.eqb_spec r k0) as [->|N]; [|destruct (r <? k0)].
      + destruct H as [H|H]; [injection H as <- <-; auto|]. right; right; auto.
      + destruct H as [H|H]; [injection H as <- <-; auto|]. right; auto.
      + destruct H as [H|H]; [right; left; auto|]. apply IH in H. destruct H; auto. right; right; auto.
  Qed.
  Lemma put_sorted : forall (c : bmap) r B, StronglySorted lt (map fst c) -> StronglySorted lt (map fst (put r B c)).
  Proof.
    induction c as [|[k B'] c IH]; intros r B S; cbn [put map]; [repeat constructor|]. cbn [map fst] in S. apply StronglySorted_inv in S. destruct S as [S F].
    destruct (Nat.eqb_spec r k) as [->|N]; cbn [map fst]; [constructor; auto|]. destruct (Nat.ltb_spec r k); cbn [map fst].
    - constructor; [constructor; auto|]. constructor; auto. eapply Forall_impl; [|exact F]. cbn. intros; lia.
    - constructor; auto. apply Forall_forall. intros x Hx. apply in_map_iff in Hx. destruct Hx as ([k2 V] & <- & Hx). apply put_in in Hx. cbn [fst].
      destruct Hx as [(-> & _)|Hx]; [lia|]. rewrite Forall_forall in F. apply F. change k2 with (fst (k2, V)). apply in_map. auto.
  Qed.
  Lemma find_in : forall (c : bmap) r B, StronglySorted lt (map fst c) -> (In (r, B) c <-> find r c = Some B).
  Proof.
    induction c as [|[k B'] c IH]; intros r B S; cbn [find]; [split; [intros []|discriminate]|]. cbn [map fst] in S. apply StronglySorted_inv in S. destruct S as [S F].
    rewrite Forall_forall in F. destruct (Nat.eqb_spec r k) as [->|N].
    - split; [|intros E; injection E as ->; left; auto]. intros [H|H]; [injection H as ->; auto|]. exfalso.
      assert (k < k) by (apply F; change k with (fst (k, B)); apply in_map; auto). lia.
    - rewrite <- IH by auto. split; [intros [H|H]; auto; injection H; intros; congruence|right; auto].
  Qed.
  Lemma find_none : forall (c : bmap) r, find r c = None <-> ~ In r (map fst c).
  Proof.
    induction c as [|[k B'] c IH]; intros r; cbn [find map fst]; [split; auto|]. destruct (Nat.eqb_spec r k) as [->|N].
    - split; [discriminate|]. intros H. exfalso. apply H. left; auto.
    - rewrite IH. split; intros H; [intros [X|X]; auto|]. intros X. apply H. right; auto.
  Qed.
  (* a sum over the entries of a column is a sum over all rows *)
  Lemma lsum_column : forall n (c : bmap) (g : nat -> mat K -> K), StronglySorted lt (map fst c) -> (forall r B, In (r, B) c -> r < n) ->
    lsum c (fun e => g (fst e) (snd e)) = ksum n (fun r => match find r c with Some B => g r B | None => k0 end).
  Proof.
    intros n. induction c as [|[k B'] c IH]; intros g S H; [cbn [lsum find]; symmetry; apply ksum_zero; auto|].
    pose proof (H k B' (or_introl eq_refl)) as Hk. cbn [map fst] in S. apply StronglySorted_inv in S. destruct S as [S F].
    assert (N : find k c = None). { apply find_none. intros X. rewrite Forall_forall in F. apply F in X. lia. }
    cbn [find]. transitivity (kadd (g k B') (ksum n (fun r => match find r c with Some B => g r B | None => k0 end))).
    { rewrite <- IH; auto. intros r B X. apply (H r B). right; auto. }
    rewrite <- (ksum_delta_l n k (fun r => g k B')) by auto. rewrite <- ksum_add. apply ksum_ext. intros r Hr. destruct (Nat.eqb_spec r k) as [->|Q].
    - rewrite delta_refl, N. ring.
    - rewrite delta_neq by auto. ring.
  Qed.

  (** ** matrices *)
  Lemma get_upd : forall (m : sbm) r c B r' c', c < length (s_cols m) ->
    get (set_cols m (upd (s_cols m) c (put r B (nth c (s_cols m) [])))) r' c' = if (r' =? r) && (c' =? c) then Some B else get m r' c'.
  Proof.
    intros m r c B r' c' H. unfold get, set_cols. cbn [s_cols]. destruct (Nat.eqb_spec c' c) as [->|N].
    - rewrite nth_upd_same by auto. destruct (Nat.eqb_spec r' r) as [->|N2]; cbn [andb]; [apply find_put_same|apply find_put_other; auto].
    - rewrite Bool.andb_false_r. f_equal. apply nth_upd_other; auto.
  Qed.
  Definition good (d : sbm) (rbi cbi : list nat) : Prop := well_formed d /\ s_storage d = true /\ s_rbi d = rbi /\ s_cbi d = cbi.
  Lemma alloc_ok : forall d rbi cbi r c, good d rbi cbi -> r < length rbi -> c < length cbi -> blockAlloc d r c = Ok (blk d r c).
  Proof.
    intros d rbi cbi r c (W & S & <- & <-) Hr Hc. unfold blockAlloc, blk. rewrite (wf_len _ W), (proj2 (Nat.ltb_lt _ _) Hr), (proj2 (Nat.ltb_lt _ _) Hc), S. cbn [andb].
    destruct (get d r c); auto.
  Qed.
  Lemma set_ok : forall d rbi cbi r c B, good d rbi cbi -> r < length rbi -> c < length cbi ->
    exists d', setBlock d r c B = Ok d' /\ good d' rbi cbi /\ forall r' c', get d' r' c' = if (r' =? r) && (c' =? c) then Some B else get d r' c'.
  Proof.
    intros d rbi cbi r c B G Hr Hc. unfold setBlock. rewrite (alloc_ok d rbi cbi) by auto. cbn [bind]. destruct G as (W & S & E1 & E2). eexists. split; [reflexivity|].
    assert (L : c < length (s_cols d)) by (rewrite (wf_len _ W), E2; auto). split; [|intros; apply get_upd; auto]. split; [|auto].
    destruct W as [W1 W2 W3 W4 W5]. constructor; cbn [set_cols s_rbi s_cbi s_cols]; auto.
    - rewrite upd_length. auto.
    - intros c'. destruct (Nat.eq_dec c' c) as [->|N]; [rewrite nth_upd_same by auto; apply put_sorted; auto|]. rewrite nth_upd_other; auto.
    - intros c' r' B'. destruct (Nat.eq_dec c' c) as [->|N]; [rewrite nth_upd_same by auto|rewrite nth_upd_other by auto; apply W5].
      intros H. apply put_in in H. destruct H as [(-> & _)|H]; [rewrite E1; auto|eapply W5; eauto].
  Qed.
  Lemma add_ok : forall d rbi cbi r c B, good d rbi cbi -> r < length rbi -> c < length cbi ->
    exists d', add_to d r c B = Ok d' /\ good d' rbi cbi /\
      forall r' c' i j, blk d' r' c' i j = kadd (blk d r' c' i j) (if (r' =? r) && (c' =? c) then B i j else k0).
  Proof.
    intros d rbi cbi r c B G Hr Hc. unfold add_to. rewrite (alloc_ok d rbi cbi) by auto. cbn [bind].
    destruct (set_ok d rbi cbi r c (madd (blk d r c) B) G Hr Hc) as (d' & E & G' & X). exists d'. split; auto. split; auto. intros r' c' i j. unfold blk at 1. rewrite X.
    unfold blk. destruct (Nat.eqb_spec r' r) as [->|]; cbn [andb]; [destruct (Nat.eqb_spec c' c) as [->|]|]; [reflexivity| |]; ring.
  Qed.
  Lemma fresh_good : forall rbi cbi, layout_ok rbi -> layout_ok cbi -> good (fresh rbi cbi) rbi cbi /\ forall r c, get (fresh rbi cbi : sbm) r c = None.
  Proof.
    intros rbi cbi L1 L2. assert (N : forall c, nth c (s_cols (fresh rbi cbi : sbm)) [] = []).
    { intros c. cbn [fresh s_cols]. destruct (Nat.lt_ge_cases c (length cbi)); [apply nth_repeat|apply nth_overflow; rewrite repeat_length; auto]. }
    split; [|intros; unfold get; rewrite N; auto]. split; [|auto]. constructor; auto.
    - cbn [fresh s_cols s_cbi]. apply repeat_length.
    - intros c. rewrite N. constructor.
    - intros c r B. rewrite N. intros [].
  Qed.
  Lemma blk_none : forall m r c, get m r c = None -> blk m r c = fun _ _ => k0.
  Proof. intros m r c H. unfold blk. rewrite H. auto. Qed.

  (* loops that set blocks *)
  Lemma set_loop : forall (X : Type) (kr kc : X -> nat) (v : X -> mat K) rbi cbi (L : list X) d, good d rbi cbi -> (forall x, In x L -> kr x < length rbi /\ kc x < length cbi) ->
    exists d', fold_left (fun s x => do y <- s; setBlock y (kr x) (kc x) (v x)) L (Ok d) = Ok d' /\ good d' rbi cbi /\
      (forall r c, (forall x, In x L -> kr x <> r \/ kc x <> c) -> get d' r c = get d r c) /\
      (forall r c (Q : mat K -> Prop), (exists x, In x L /\ kr x = r /\ kc x = c) -> (forall x, In x L -> kr x = r -> kc x = c -> Q (v x)) -> exists B, get d' r c = Some B /\ Q B).
  Proof.
    intros X kr kc v rbi cbi. induction L as [|x L IH] using rev_ind; intros d G H.
    - exists d. split; auto. split; auto. split; auto. intros r c Q (x & [] & _).
    - destruct (IH d G) as (d1 & E1 & G1 & A1 & B1); [intros; apply H; apply in_or_app; auto|]. rewrite fold_left_app, E1. cbn [fold_left bind].
      destruct (H x) as (Hr & Hc); [apply in_or_app; right; left; auto|]. destruct (set_ok d1 rbi cbi (kr x) (kc x) (v x) G1 Hr Hc) as (d2 & E2 & G2 & X2).
      exists d2. split; auto. split; auto. split.
      + intros r c N. rewrite X2. assert (Nx := N x ltac:(apply in_or_app; right; left; auto)).
        destruct (Nat.eqb_spec r (kr x)), (Nat.eqb_spec c (kc x)); cbn [andb]; [exfalso; subst; tauto| | |]; apply A1; intros; apply N; apply in_or_app; auto.
      + intros r c Q (y & Y1 & Y2 & Y3) F. rewrite X2. destruct (Nat.eqb_spec r (kr x)) as [E|E], (Nat.eqb_spec c (kc x)) as [E'|E']; cbn [andb].
        1: { eexists; split; [reflexivity|]. apply F; auto. apply in_or_app; right; left; auto. }
        all: apply B1; [|intros; apply F; auto; apply in_or_app; auto]; apply in_app_or in Y1; destruct Y1 as [Y1|[<-|[]]]; [exists y; auto|exfalso; subst; tauto].
  Qed.
  (* loops that add to blocks *)
  Lemma add_loop : forall (X : Type) (kr kc : X -> nat) (v : X -> mat K) rbi cbi (L : list X) d, good d rbi cbi -> (forall x, In x L -> kr x < length rbi /\ kc x < length cbi) ->
    exists d', fold_left (fun s x => do y <- s; add_to y (kr x) (kc x) (v x)) L (Ok d) = Ok d' /\ good d' rbi cbi /\
      (forall r c i j, blk d' r c i j = kadd (blk d r c i j) (lsum L (fun x => if (r =? kr x) && (c =? kc x) then v x i j else k0))).
  Proof.
    intros X kr kc v rbi cbi. induction L as [|x L IH]; intros d G H.
    - exists d. split; auto. split; auto. intros. cbn [lsum]. ring.
    - destruct (H x) as (Hr & Hc); [left; auto|]. destruct (add_ok d rbi cbi (kr x) (kc x) (v x) G Hr Hc) as (d1 & E1 & G1 & X1).
      cbn [fold_left bind]. rewrite E1. destruct (IH d1 G1) as (d2 & E2 & G2 & X2); [intros; apply H; right; auto|]. exists d2. split; auto. split; auto.
      intros r c i j. rewrite X2, X1. cbn [lsum]. ring.
  Qed.

  Lemma in_entries : forall (m : sbm) r c B, In (r, c, B) (entries m) <-> c < length (s_cols m) /\ In (r, B) (nth c (s_cols m) []).
  Proof.
    intros m r c B. unfold entries. rewrite in_flat_map. split.
    - intros (i & Hi & H). apply in_seq in Hi. apply in_map_iff in H. destruct H as ([k V] & E & H). injection E as <- <- <-. split; [lia|auto].
    - intros (Hc & H). exists c. split; [apply in_seq; lia|]. apply in_map_iff. exists (r, B). auto.
  Qed.
  Lemma entry_get : forall (m : sbm) r c B, well_formed m -> (In (r, c, B) (entries m) <-> get m r c = Some B).
  Proof.
    intros m r c B W. rewrite in_entries. unfold get. rewrite <- find_in by apply (wf_keys _ W). split; [tauto|]. intros H. split; auto.
    destruct (Nat.lt_ge_cases c (length (s_cols m))); auto. rewrite nth_overflow in H by auto. destruct H.
  Qed.
  Lemma get_range : forall (m : sbm) r c B, well_formed m -> get m r c = Some B -> r < length (s_rbi m) /\ c < length (s_cbi m).
  Proof.
    intros m r c B W H. apply entry_get in H; auto. apply in_entries in H. destruct H as (H1 & H2). split; [eapply (wf_range _ W); eauto|]. rewrite <- (wf_len _ W). auto.
  Qed.
  Lemma entry_range : forall (m : sbm) e, well_formed m -> In e (entries m) -> fst (fst e) < length (s_rbi m) /\ snd (fst e) < length (s_cbi m).
  Proof. intros m [[r c] B] W H. cbn [fst snd]. apply entry_get in H; auto. eapply get_range; eauto. Qed.
  Lemma lsum_entries : forall (m : sbm) (g : nat -> nat -> mat K -> K), well_formed m ->
    lsum (entries m) (fun e => g (fst (fst e)) (snd (fst e)) (snd e)) =
    ksum (length (s_cbi m)) (fun c => ksum (length (s_rbi m)) (fun r => match get m r c with Some B => g r c B | None => k0 end)).
  Proof.
    intros m g W. unfold entries. rewrite lsum_flat_map, lsum_seq, (wf_len _ W). apply ksum_ext. intros c Hc. rewrite lsum_map. cbn [fst snd].
    rewrite (lsum_column (length (s_rbi m)) (nth c (s_cols m) []) (fun r B => g r c B)); auto; [apply (wf_keys _ W)|]. apply (wf_range _ W).
  Qed.
  Lemma if_blk : forall (m : sbm) r c (g : mat K -> K), (g (fun _ _ => k0) = k0) -> match get m r c with Some B => g B | None => k0 end = g (blk m r c).
  Proof. intros m r c g H. unfold blk. destruct (get m r c); auto. Qed.

  Lemma ksum_tile : forall l n f, layout_ok l -> n <= length l -> ksum (base l n) f = ksum n (fun b => ksum (bsize l b) (fun i => f (base l b + i))).
  Proof.
    intros l n f L. induction n as [|n IH]; intros H; [reflexivity|]. rewrite base_S by (auto; lia). rewrite ksum_split. cbn [ksum]. rewrite IH by lia. auto.
  Qed.
End Maps.
