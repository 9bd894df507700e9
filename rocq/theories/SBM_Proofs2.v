(** * Proofs about the operations of SparseBlockMatrix *)
From Coq Require Import Arith Lia List Bool Sorting.Sorted.
From Verif Require Import Lib_Ring Lib_Res CCM_Model CCM_Proofs SBM_Model SBM_Spec SBM_Proofs.
Import ListNotations.

Section Ops.
  Context {K : Type} {R : CRing K}.
  Add Ring Kring2 : (@kring K R).
  Notation sbm := (sbm K). Notation bmap := (bmap K).

  Lemma stands_ext : forall (m : sbm) A B, (forall r c, r < total (s_rbi m) -> c < total (s_cbi m) -> A r c = B r c) -> well_formed m -> stands_for m A -> stands_for m B.
  Proof. intros m A B E W S br bc i j H1 H2 H3 H4. rewrite <- E by (apply tile_in; auto; apply W). apply S; auto. Qed.

  Lemma element_ok : forall (m : sbm) A r c, well_formed m -> stands_for m A -> r < total (s_rbi m) -> c < total (s_cbi m) -> element m r c = Ok (A r c).
  Proof.
    intros m A r c W S Hr Hc. unfold element. rewrite (proj2 (Nat.ltb_lt _ _) Hr), (proj2 (Nat.ltb_lt _ _) Hc). cbn [andb]. cbv zeta.
    rewrite total_base in Hr, Hc. destruct (tile_exists _ _ _ (wf_rows _ W) (le_n _) Hr) as (br & i & R1 & R2 & ->).
    destruct (tile_exists _ _ _ (wf_cols _ W) (le_n _) Hc) as (bc & j & C1 & C2 & ->). rewrite !upper_bound_ok by (auto; apply W).
    rewrite (wf_len _ W), (proj2 (Nat.ltb_lt _ _) C1). specialize (S br bc i j R1 C1 R2 C2). unfold blk in S.
    destruct (get m br bc) as [B|]; rewrite S; auto. do 2 f_equal; lia.
  Qed.
  Lemma element_out : forall (m : sbm) r c, total (s_rbi m) <= r \/ total (s_cbi m) <= c -> element m r c = Throw.
  Proof. intros m r c H. unfold element. destruct (Nat.ltb_spec r (total (s_rbi m))), (Nat.ltb_spec c (total (s_cbi m))); cbn [andb]; auto; lia. Qed.

  Lemma dense_column : forall (m : sbm) cidx w br a q (c : bmap) D, well_formed m -> StronglySorted lt (map fst c) -> (forall r B, In (r, B) c -> r < length (s_rbi m)) ->
    br < length (s_rbi m) -> a < bsize (s_rbi m) br ->
    fold_left (fun D e => write_block D (base (s_rbi m) (fst e)) cidx (bsize (s_rbi m) (fst e)) w (snd e)) c D (base (s_rbi m) br + a) q =
    if (cidx <=? q) && (q <? cidx + w) then match find br c with Some B => B a (q - cidx) | None => D (base (s_rbi m) br + a) q end else D (base (s_rbi m) br + a) q.
  Proof.
    intros m cidx w br a q c. induction c as [|[k B] c IH]; intros D W S H Hb Ha; cbn [fold_left find].
    - destruct (_ && _); auto.
    - cbn [map fst] in S. apply StronglySorted_inv in S. destruct S as [S F]. cbn [fst snd]. rewrite IH by (auto; intros; apply (H r B0); right; auto).
      assert (Hk : k < length (s_rbi m)) by (apply (H k B); left; auto).
      unfold write_block. rewrite <- !Bool.andb_assoc. rewrite Bool.andb_assoc. rewrite tile_test by (auto; apply W).
      destruct ((cidx <=? q) && (q <? cidx + w)); [|rewrite Bool.andb_false_r; auto]. rewrite Bool.andb_true_r, (Nat.eqb_sym k br).
      destruct (Nat.eqb_spec br k) as [->|N]; auto. assert (N : find k c = None) by (apply find_none; intros X; rewrite Forall_forall in F; apply F in X; lia).
      rewrite N. f_equal. lia.
  Qed.
  Lemma dense_cols_ok : forall (m : sbm) br a bc b, well_formed m -> br < length (s_rbi m) -> a < bsize (s_rbi m) br -> bc < length (s_cbi m) -> b < bsize (s_cbi m) bc ->
    forall cs i D, i + length cs = length (s_cbi m) -> (forall k, nth k cs [] = nth (i + k) (s_cols m) []) ->
    dense_cols m i (base (s_cbi m) i) cs D (base (s_rbi m) br + a) (base (s_cbi m) bc + b) =
    if i <=? bc then match get m br bc with Some B => B a b | None => D (base (s_rbi m) br + a) (base (s_cbi m) bc + b) end else D (base (s_rbi m) br + a) (base (s_cbi m) bc + b).
  Proof.
    intros m br a bc b W Hbr Ha Hbc Hb. induction cs as [|c cs IH]; intros i D L N; cbn [dense_cols].
    - cbn in L. rewrite (proj2 (Nat.leb_gt i bc)) by lia. auto.
    - cbn [length] in L. cbv zeta. pose proof (base_S (s_cbi m) i (wf_cols _ W) ltac:(lia)) as BS. rewrite Nat.add_comm in BS. rewrite (Nat.add_comm (base _ i)), <- BS.
      replace (i + 1) with (S i) by lia. rewrite IH; [|lia|intros k; replace (S i + k) with (i + S k) by lia; apply (N (S k))].
      pose proof (N 0) as N0. cbn [nth] in N0. rewrite Nat.add_0_r in N0.
      rewrite (dense_column m) by (auto; subst c; first [apply (wf_keys _ W)|apply (wf_range _ W)]). rewrite tile_test by (auto; try lia; apply W).
      unfold get. destruct (Nat.leb_spec (S i) bc), (Nat.leb_spec i bc), (Nat.eqb_spec i bc); try lia; auto. subst bc. rewrite <- N0.
      destruct (find br c); auto. f_equal. lia.
  Qed.
  Lemma stands_toDense : forall m : sbm, well_formed m -> stands_for m (toDense m).
  Proof.
    intros m W br bc i j H1 H2 H3 H4. unfold toDense. pose proof (dense_cols_ok m br i bc j W H1 H3 H2 H4 (s_cols m) 0 zeroM) as D. cbn [base] in D.
    etransitivity; [apply D; [apply (wf_len _ W)|auto]|]. cbn [Nat.leb]. unfold blk. destruct (get m br bc); reflexivity.
  Qed.
  Lemma toDense_ok : forall (m : sbm) A r c, well_formed m -> stands_for m A -> r < total (s_rbi m) -> c < total (s_cbi m) -> toDense m r c = A r c.
  Proof.
    intros m A r c W S Hr Hc. pose proof (element_ok m A r c W S Hr Hc) as E1. pose proof (element_ok m _ r c W (stands_toDense m W) Hr Hc) as E2. congruence.
  Qed.

  Lemma same_true : forall a b, same a b = true <-> a = b.
  Proof. intros a b. unfold same. destruct (list_eq_dec Nat.eq_dec a b); split; intros; auto; congruence. Qed.
  Lemma same_refl : forall a, same a a = true. Proof. intros; apply same_true; auto. Qed.

  Lemma good_represents : forall d rbi cbi A, good d rbi cbi ->
    (forall br bc i j, br < length rbi -> bc < length cbi -> i < bsize rbi br -> j < bsize cbi bc -> A (base rbi br + i) (base cbi bc + j) = blk d br bc i j) -> represents d rbi cbi A.
  Proof. intros d rbi cbi A (W & S & E1 & E2) H. split; auto. split; auto. split; auto. split; auto. intros br bc i j. rewrite E1, E2. apply H. Qed.
  Lemma represents_good : forall d rbi cbi A, represents d rbi cbi A -> good d rbi cbi /\
    (forall br bc i j, br < length rbi -> bc < length cbi -> i < bsize rbi br -> j < bsize cbi bc -> A (base rbi br + i) (base cbi bc + j) = blk d br bc i j).
  Proof. intros d rbi cbi A (W & S & E1 & E2 & H). split; [split; auto|]. subst. exact H. Qed.

  (** transpose *)
  Lemma transpose_loop : forall m A d, well_formed m -> stands_for m A -> good d (s_cbi m) (s_rbi m) -> (forall r c, get m r c = None -> get d c r = None) ->
    exists d', loop m (fun d r i B => setBlock d i r (mtr B)) d = Ok d' /\ represents d' (s_cbi m) (s_rbi m) (mtr A).
  Proof.
    intros m A d W S G N. unfold loop.
    destruct (set_loop _ (fun e : nat * nat * mat K => snd (fst e)) (fun e => fst (fst e)) (fun e => mtr (snd e)) (s_cbi m) (s_rbi m) (entries m) d G) as (d' & E & G' & X1 & X2).
    { intros e H. apply entry_range in H; auto. tauto. }
    exists d'. split; auto. apply good_represents; auto. intros br bc i j H1 H2 H3 H4. unfold mtr at 1. rewrite (S bc br j i H2 H1 H4 H3). unfold blk. destruct (get m bc br) as [B|] eqn:EB.
    - destruct (X2 br bc (fun M => forall i j, M i j = B j i)) as (B' & B1 & B2).
      + exists (bc, br, B). split; [apply entry_get; auto|auto].
      + intros [[r c] V] H <- <-. cbn [fst snd] in *. apply entry_get in H; auto. rewrite H in EB. injection EB as ->. auto.
      + rewrite B1, B2. auto.
    - rewrite X1, (N _ _ EB); auto. intros [[r c] V] H. cbn [fst snd]. apply entry_get in H; auto.
      destruct (Nat.eq_dec c br) as [->|]; auto. destruct (Nat.eq_dec r bc) as [->|]; auto. congruence.
  Qed.
  Lemma transpose_ok : forall m A, well_formed m -> stands_for m A -> delivers (transpose m None) (s_cbi m) (s_rbi m) (mtr A).
  Proof.
    intros m A W S. destruct (@fresh_good K (s_cbi m) (s_rbi m) (wf_cols _ W) (wf_rows _ W)) as (G & N).
    destruct (transpose_loop m A (fresh (s_cbi m) (s_rbi m)) W S G) as (d' & E & Rp); [auto|]. exists d'. split; auto. unfold transpose. rewrite E. auto.
  Qed.
  Lemma transpose_into : forall m A d, well_formed m -> stands_for m A -> well_formed d -> s_storage d = true -> s_rbi d = s_cbi m -> s_cbi d = s_rbi m ->
    (forall r c, get d c r <> None -> get m r c <> None) -> delivers (transpose m (Some d)) (s_cbi m) (s_rbi m) (mtr A).
  Proof.
    intros m A d W S Wd Sd E1 E2 N. destruct (transpose_loop m A d W S) as (d' & E & Rp); [split; auto| |].
    - intros r c H. destruct (get d c r) eqn:Q; auto. exfalso. apply (N r c); congruence.
    - exists d'. split; auto. unfold transpose. rewrite Sd, E1, E2, !same_refl. cbn [andb]. rewrite E. auto.
  Qed.

  (** addition *)
  Lemma ksum_pick : forall n k (f : nat -> K), k < n -> ksum n (fun i => if k =? i then f i else k0) = f k.
  Proof. intros n k f H. rewrite (ksum_single n k) by (auto; intros i _ N; rewrite (proj2 (Nat.eqb_neq k i)); auto). rewrite Nat.eqb_refl. auto. Qed.
  Lemma add_loop_ok : forall m A d D, well_formed m -> stands_for m A -> represents d (s_rbi m) (s_cbi m) D ->
    exists d', loop m add_to d = Ok d' /\ represents d' (s_rbi m) (s_cbi m) (madd D A).
  Proof.
    intros m A d D W S Rd. destruct (represents_good _ _ _ _ Rd) as (G & Sd). unfold loop.
    destruct (add_loop _ (fun e : nat * nat * mat K => fst (fst e)) (fun e => snd (fst e)) (fun e => snd e) (s_rbi m) (s_cbi m) (entries m) d G) as (d' & E & G' & X).
    { intros e H. apply entry_range; auto. }
    exists d'. split; auto. apply good_represents; auto. intros br bc i j H1 H2 H3 H4. unfold madd. rewrite X, Sd, S by auto. f_equal.
    rewrite (lsum_entries m (fun r c B => if (br =? r) && (bc =? c) then B i j else k0)) by auto.
    transitivity (ksum (length (s_cbi m)) (fun c => if bc =? c then blk m br c i j else k0)); [symmetry; apply (ksum_pick _ bc (fun c => blk m br c i j)); auto|].
    apply ksum_ext. intros c Hc. destruct (Nat.eqb_spec bc c) as [->|Nc].
    - transitivity (ksum (length (s_rbi m)) (fun r => if br =? r then blk m r c i j else k0)); [symmetry; apply (ksum_pick _ br (fun r => blk m r c i j)); auto|].
      apply ksum_ext. intros r Hr. unfold blk. destruct (br =? r), (get m r c); cbn [andb]; auto.
    - symmetry. apply ksum_zero. intros r Hr. rewrite Bool.andb_false_r. destruct (get m r c); auto.
  Qed.
  Lemma fresh_represents : forall rbi cbi, layout_ok rbi -> layout_ok cbi -> represents (fresh rbi cbi) rbi cbi (fun _ _ => k0).
  Proof. intros rbi cbi L1 L2. destruct (@fresh_good K rbi cbi L1 L2) as (G & N). apply good_represents; auto. intros. rewrite blk_none; auto. Qed.
  Lemma add_none : forall m A, well_formed m -> stands_for m A -> delivers (add m None) (s_rbi m) (s_cbi m) A.
  Proof.
    intros m A W S. destruct (add_loop_ok m A (fresh (s_rbi m) (s_cbi m)) (fun _ _ => k0) W S) as (d' & E & Rp); [apply fresh_represents; apply W|].
    exists d'. unfold add. rewrite E. split; auto. destruct Rp as (W2 & S2 & E1 & E2 & Rp). split; auto. split; auto. split; auto. split; auto.
    eapply stands_ext; [|exact W2|exact Rp]. intros. unfold madd. ring.
  Qed.
  Lemma add_some : forall m A d D, well_formed m -> stands_for m A -> represents d (s_rbi m) (s_cbi m) D -> delivers (add m (Some d)) (s_rbi m) (s_cbi m) (madd D A).
  Proof.
    intros m A d D W S Rd. destruct (add_loop_ok m A d D W S Rd) as (d' & E & Rp). exists d'. unfold add. destruct Rd as (_ & Sd & -> & -> & _).
    rewrite Sd, !same_refl. cbn [andb]. rewrite E. auto.
  Qed.

  (** multiplication *)
  Lemma fold_flat : forall X Y St (f : St -> Y -> res St) (g : X -> list Y) (L : list X) s,
    fold_left (fun s x => do y <- s; fold_left (fun s e => do z <- s; f z e) (g x) (Ok y)) L (Ok s) = fold_left (fun s e => do z <- s; f z e) (flat_map g L) (Ok s).
  Proof.
    intros X Y St f g L. assert (B : forall l r, match r with Ok _ => True | _ => fold_left (fun s e => do z <- s; f z e) l r = r end).
    { induction l as [|e l IH]; intros [s| |]; cbn; auto; [apply (IH Throw)|apply (IH UB)]. }
    assert (B2 : forall L r, match r with Ok _ => True | _ => fold_left (fun s x => do y <- s; fold_left (fun s e => do z <- s; f z e) (g x) (Ok y)) L r = r end).
    { induction L0 as [|e l IH]; intros [s| |]; cbn; auto; [apply (IH Throw)|apply (IH UB)]. }
    induction L as [|x L IH]; intros s; cbn [fold_left flat_map]; auto. rewrite fold_left_app. cbn [bind].
    destruct (fold_left _ (g x) (Ok s)) as [s'| |]; [apply IH|rewrite (B _ Throw); apply (B2 L Throw)|rewrite (B _ UB); apply (B2 L UB)].
  Qed.
  Lemma fold_ext_in : forall X St (f g : St -> X -> St) L s, (forall s x, In x L -> f s x = g s x) -> fold_left f L s = fold_left g L s.
  Proof. induction L as [|x L IH]; intros s H; cbn; auto. rewrite H by (left; auto). apply IH. intros; apply H; right; auto. Qed.

  Lemma multiply_loop_ok : forall m f A B d D, well_formed m -> well_formed f -> s_cbi m = s_rbi f -> stands_for m A -> stands_for f B -> represents d (s_rbi m) (s_cbi f) D ->
    exists d', multiply_loop m f d = Ok d' /\ represents d' (s_rbi m) (s_cbi f) (madd D (mmul (total (s_cbi m)) A B)).
  Proof.
    intros m f A B d D Wm Wf Em SA SB Rd. destruct (represents_good _ _ _ _ Rd) as (G & Sd). unfold multiply_loop, loop.
    set (terms := flat_map (fun e : nat * nat * mat K => map (fun x => (fst x, snd (fst e), mmul (bsize (s_cbi m) (fst (fst e))) (snd x) (snd e))) (nth (fst (fst e)) (s_cols m) [])) (entries f)).
    assert (E : fold_left (fun s e => do x <- s; (fun d k i b => if k <? length (s_cols m) then
        fold_left (fun s e => do x <- s; add_to x (fst e) i (mmul (bsize (s_cbi m) k) (snd e) b)) (nth k (s_cols m) []) (Ok d) else UB) x (fst (fst e)) (snd (fst e)) (snd e)) (entries f) (Ok d) =
      fold_left (fun s t => do y <- s; add_to y (fst (fst t)) (snd (fst t)) (snd t)) terms (Ok d)).
    { unfold terms. rewrite <- fold_flat. apply fold_ext_in. intros s [[k i] b] H. cbn [fst snd]. apply entry_get in H; auto. apply get_range in H; auto.
      assert (Hk : k < length (s_cols m)) by (rewrite (wf_len _ Wm), Em; tauto). rewrite (proj2 (Nat.ltb_lt _ _) Hk). destruct s as [x| |]; cbn [bind]; auto.
      generalize (nth k (s_cols m) []). intros l. revert x. assert (Gn : forall l (s : res sbm), fold_left (fun s e => do x <- s; add_to x (fst e) i (mmul (bsize (s_cbi m) k) (snd e) b)) l s =
        fold_left (fun s e => do z <- s; add_to z (fst (fst e)) (snd (fst e)) (snd e)) (map (fun x => (fst x, i, mmul (bsize (s_cbi m) k) (snd x) b)) l) s).
      { induction l0 as [|e l0 IH]; intros s; cbn [fold_left map]; auto. }
      intros x. apply Gn. }
    cbv beta in E. rewrite E. clear E.
    destruct (add_loop _ (fun e : nat * nat * mat K => fst (fst e)) (fun e => snd (fst e)) (fun e => snd e) (s_rbi m) (s_cbi f) terms d G) as (d' & E & G' & X).
    { intros t H. unfold terms in H. apply in_flat_map in H. destruct H as ([[k i] b] & H1 & H2). apply in_map_iff in H2. destruct H2 as ([r a] & <- & H2). cbn [fst snd] in *.
      apply entry_get in H1; auto. apply get_range in H1; auto. split; [|tauto]. eapply (wf_range _ Wm); eauto. }
    exists d'. split; auto. apply good_represents; auto. intros br bc i j H1 H2 H3 H4. unfold madd. rewrite X, Sd by auto. f_equal.
    unfold terms. rewrite lsum_flat_map.
    transitivity (lsum (entries f) (fun e => if bc =? snd (fst e) then ksum (bsize (s_cbi m) (fst (fst e))) (fun t => kmul (blk m br (fst (fst e)) i t) (snd e t j)) else k0)).
    2: { apply lsum_ext. intros [[k c] b] H. cbn [fst snd]. rewrite lsum_map. cbn [fst snd].
         rewrite (lsum_column (length (s_rbi m)) (nth k (s_cols m) []) (fun r a => if (br =? r) && (bc =? c) then mmul (bsize (s_cbi m) k) a b i j else k0)) by
           first [apply (wf_keys _ Wm)|apply (wf_range _ Wm)].
         destruct (bc =? c).
         - transitivity (ksum (length (s_rbi m)) (fun r => if br =? r then ksum (bsize (s_cbi m) k) (fun t => kmul (blk m r k i t) (b t j)) else k0)).
           + symmetry. apply (ksum_pick _ br (fun r => ksum (bsize (s_cbi m) k) (fun t => kmul (blk m r k i t) (b t j)))). auto.
           + apply ksum_ext. intros r Hr. unfold blk, get. rewrite Bool.andb_true_r. destruct (br =? r), (find r (nth k (s_cols m) [])); auto. apply ksum_zero. intros. ring.
         - symmetry. apply ksum_zero. intros r Hr. rewrite Bool.andb_false_r. destruct (find r _); auto. }
    rewrite (lsum_entries f (fun k c b => if bc =? c then ksum (bsize (s_cbi m) k) (fun t => kmul (blk m br k i t) (b t j)) else k0)) by auto.
    transitivity (ksum (length (s_cbi f)) (fun c => if bc =? c then ksum (length (s_rbi f)) (fun k => ksum (bsize (s_cbi m) k) (fun t => kmul (blk m br k i t) (blk f k c t j))) else k0)).
    2: { apply ksum_ext. intros c Hc. destruct (bc =? c).
         - apply ksum_ext. intros k Hk. unfold blk at 2. destruct (get f k c); auto. apply ksum_zero. intros; ring.
         - symmetry. apply ksum_zero. intros k Hk. destruct (get f k c); auto. }
    rewrite (ksum_pick _ bc (fun c => ksum (length (s_rbi f)) (fun k => ksum (bsize (s_cbi m) k) (fun t => kmul (blk m br k i t) (blk f k c t j))))) by auto.
    unfold mmul. rewrite total_base, ksum_tile by (auto; apply Wm). rewrite Em. apply ksum_ext. intros k Hk. apply ksum_ext. intros t Ht.
    rewrite <- Em at 1. rewrite SA by (auto; rewrite Em; auto). rewrite SB by auto. auto.
  Qed.
  Lemma multiply_none : forall m f A B, well_formed m -> well_formed f -> s_cbi m = s_rbi f -> stands_for m A -> stands_for f B ->
    delivers (multiply m f None) (s_rbi m) (s_cbi f) (mmul (total (s_cbi m)) A B).
  Proof.
    intros m f A B Wm Wf Em SA SB. destruct (multiply_loop_ok m f A B (fresh (s_rbi m) (s_cbi f)) (fun _ _ => k0) Wm Wf Em SA SB) as (d' & E & Rp).
    { apply fresh_represents; [apply Wm|apply Wf]. }
    exists d'. unfold multiply. rewrite (proj2 (same_true _ _) Em). cbn [fresh s_storage]. fold (@fresh K (s_rbi m) (s_cbi f)) . rewrite E. split; auto.
    destruct Rp as (W2 & S2 & E1 & E2 & Rp). split; auto. split; auto. split; auto. split; auto.
    eapply stands_ext; [|exact W2|exact Rp]. intros. unfold madd. ring.
  Qed.
  Lemma multiply_some : forall m f A B d D, well_formed m -> well_formed f -> s_cbi m = s_rbi f -> stands_for m A -> stands_for f B -> represents d (s_rbi m) (s_cbi f) D ->
    delivers (multiply m f (Some d)) (s_rbi m) (s_cbi f) (madd D (mmul (total (s_cbi m)) A B)).
  Proof.
    intros m f A B d D Wm Wf Em SA SB Rd. destruct (multiply_loop_ok m f A B d D Wm Wf Em SA SB Rd) as (d' & E & Rp).
    exists d'. unfold multiply. rewrite (proj2 (same_true _ _) Em). destruct Rd as (_ & -> & _). rewrite E. split; auto.
  Qed.
End Ops.
