(** * Lemmas about the matrix stack model *)
From Coq Require Import Arith Lia List NArith ZArith Ring.
From Verif Require Import Lib_Ring Lib_Res MatrixStack_Model MatrixStack_Spec.
Import ListNotations.

Lemma wrap16_small : forall x, (N.of_nat x < 65536)%N -> wrap16 x = x.
Proof. intros; unfold wrap16. rewrite N.mod_small by auto. apply Nnat.Nat2N.id. Qed.
Lemma wrap32_small : forall x, (N.of_nat x < 4294967296)%N -> wrap32 x = x.
Proof. intros; unfold wrap32. rewrite N.mod_small by auto. apply Nnat.Nat2N.id. Qed.

Section Proofs.
Context {K : Type} {R : CRing K}.
Add Ring Kring : (@kring K R).

Notation hend n h := (h_idx h + n * h_cols h).
Definition hsend (n : nat) (hs : list header) : nat :=
  match hs with [] => 0 | h :: _ => hend n h end.

(** abstract content of the headers *)
Fixpoint layout (n al : nat) (d : list K) (hs : list header) (fs : list (@factor K)) : Prop :=
  match hs, fs with
  | [], [] => True
  | h :: hs', f :: fs' =>
      h_idx h mod al = 0 /\ hsend n hs' <= h_idx h /\ h_cols h = prod_cols n fs /\
      hend n h <= length d /\ hend n h <= space n al fs /\
      (forall i j, i < n -> j < h_cols h -> nth (h_idx h + (i + j * n)) d k0 = prod_mat n fs i j) /\
      layout n al d hs' fs'
  | _, _ => False
  end.

Definition Inv (n al : nat) (s : mstack) (fs : list (@factor K)) : Prop :=
  ms_rows s = n /\ layout n al (ms_data s) (ms_headers s) fs /\ ms_size s = hsend n (ms_headers s) /\
  (N.of_nat (space n al fs) < 4294967296)%N.

Lemma layout_hsend : forall n al d hs fs, layout n al d hs fs ->
  hsend n hs <= length d /\ hsend n hs <= space n al fs.
Proof.
  intros n al d [|h hs] [|f fs]; cbn [layout hsend]; intros; try lia; try contradiction.
Qed.

Lemma flat_lt : forall i j r c, i < r -> j < c -> i + j * r < r * c.
Proof. intros. nia. Qed.

(** layout only depends on the data below the end *)
Lemma layout_data : forall n al d d' hs fs,
  layout n al d hs fs -> length d <= length d' ->
  (forall p, p < hsend n hs -> nth p d' k0 = nth p d k0) ->
  layout n al d' hs fs.
Proof.
  induction hs as [|h hs IH]; intros [|f fs] H Hlen Hd; cbn [layout] in *; auto.
  destruct H as (H1 & H2 & H3 & H4 & H5 & H6 & H7). cbn [hsend] in Hd.
  repeat split; auto; try lia.
  - intros i j Hi Hj. rewrite Hd; auto. pose proof (flat_lt i j n (h_cols h) Hi Hj). lia.
  - apply IH; auto. intros; apply Hd. lia.
Qed.

Lemma store_spec : forall n rows idx f g d,
  idx + n <= length d ->
  (forall p d', p < n -> length d' = length d ->
     (forall q, q < idx -> nth q d' k0 = nth q d k0) -> f d' (p mod rows) (p / rows) = g p) ->
  length (store n rows idx f d) = length d /\
  (forall q, q < idx -> nth q (store n rows idx f d) k0 = nth q d k0) /\
  (forall p, p < n -> nth (idx + p) (store n rows idx f d) k0 = g p).
Proof.
  induction n; intros rows idx f g d Hlen Hf; cbn [store].
  - repeat split; auto; intros; lia.
  - destruct (IHn rows idx f g d) as (L & O & I); [lia|intros; apply Hf; auto; lia|].
    repeat split.
    + rewrite upd_length; auto.
    + intros. rewrite nth_upd_other by lia. auto.
    + intros p Hp. destruct (Nat.eq_dec p n) as [->|].
      * rewrite nth_upd_same by lia. apply Hf; auto.
      * rewrite nth_upd_other by lia. apply I. lia.
Qed.

Lemma flat_mod : forall i j r, i < r -> (i + j * r) mod r = i.
Proof. intros. rewrite Nat.mod_add by lia. apply Nat.mod_small; auto. Qed.
Lemma flat_div : forall i j r, i < r -> (i + j * r) / r = j.
Proof. intros. rewrite Nat.div_add by lia. rewrite Nat.div_small; auto. Qed.

(** round up to the alignment *)
Definition roundup (al x : nat) : nat := if x mod al =? 0 then x else x + (al - x mod al).
Lemma roundup_spec : forall al x, 0 < al ->
  roundup al x mod al = 0 /\ x <= roundup al x /\ roundup al x < x + al.
Proof.
  intros al x Hal. unfold roundup. pose proof (Nat.mod_upper_bound x al ltac:(lia)) as Hb.
  destruct (Nat.eqb_spec (x mod al) 0).
  - repeat split; auto; lia.
  - repeat split; try lia.
    replace (x + (al - x mod al)) with ((al * (x / al) + al)).
    + replace (al * (x / al) + al) with ((x / al + 1) * al) by ring. apply Nat.mod_mul; lia.
    + pose proof (Nat.div_mod x al ltac:(lia)). lia.
Qed.

Definition grow (d : list K) (newSize : nat) : list K :=
  if length d <? newSize
  then d ++ repeat k0 (Nat.max (2 * length d) newSize - length d) else d.
Lemma grow_len : forall d m, length d <= length (grow d m) /\ m <= length (grow d m).
Proof.
  intros; unfold grow. destruct (Nat.ltb_spec (length d) m); [|lia].
  rewrite app_length, repeat_length. lia.
Qed.
Lemma grow_nth : forall d m p, p < length d -> nth p (grow d m) k0 = nth p d k0.
Proof.
  intros; unfold grow. destruct (Nat.ltb_spec (length d) m); auto. apply app_nth1; auto.
Qed.

Lemma ms_allocate_eq : forall al (s : mstack) cols,
  (N.of_nat (ms_rows s * cols) < 2147483648)%N ->
  (N.of_nat cols < 65536)%N ->
  (N.of_nat (roundup al (ms_size s)) < 4294967296)%N ->
  ms_allocate al s cols =
  Ok (mkMS (ms_rows s) (grow (ms_data s) (roundup al (ms_size s) + ms_rows s * cols))
        (mkHeader cols (roundup al (ms_size s)) :: ms_headers s)
        (roundup al (ms_size s) + ms_rows s * cols)).
Proof.
  intros al s cols H1 H2 H3. unfold ms_allocate. fold (roundup al (ms_size s)).
  unfold fits_int. rewrite (proj2 (N.ltb_lt _ _)) by auto.
  cbn [negb]. fold (grow (ms_data s) (roundup al (ms_size s) + ms_rows s * cols)).
  rewrite wrap16_small, wrap32_small by auto. reflexivity.
Qed.

(** the common core of the push functions: allocate then store *)
Lemma alloc_store_inv : forall n al (s : mstack) fs f src,
  0 < al ->
  Inv n al s fs ->
  fits n al (f :: fs) ->
  (forall p d', p < n * prod_cols n (f :: fs) ->
     (forall q, q < hsend n (ms_headers s) -> nth q d' k0 = nth q (ms_data s) k0) ->
     src d' (p mod n) (p / n) = prod_mat n (f :: fs) (p mod n) (p / n)) ->
  exists s1 s2, ms_allocate al s (prod_cols n (f :: fs)) = Ok s1 /\
    ms_rows s1 = n /\
    ms_headers s1 = mkHeader (prod_cols n (f :: fs)) (roundup al (ms_size s)) :: ms_headers s /\
    length (ms_data s) <= length (ms_data s1) /\
    assign_top s1 (prod_cols n (f :: fs)) src = Ok s2 /\ Inv n al s2 (f :: fs) /\
    (forall q, q < hsend n (ms_headers s) -> nth q (ms_data s2) k0 = nth q (ms_data s) k0).
Proof.
  intros n al s fs f src Hal (Hr & Hl & Hs & Hsp) (F1 & F2 & F3) Hsrc.
  destruct (layout_hsend _ _ _ _ _ Hl) as [E1 E2].
  destruct (roundup_spec al (ms_size s) Hal) as (R1 & R2 & R3).
  set (c := prod_cols n (f :: fs)) in *.
  assert (Hspace : space n al (f :: fs) = n * c + al + space n al fs) by reflexivity.
  assert (Hru : (N.of_nat (roundup al (ms_size s)) < 4294967296)%N) by lia.
  rewrite ms_allocate_eq; rewrite ?Hr; auto.
  set (st := roundup al (ms_size s)) in *.
  set (d1 := grow (ms_data s) (st + n * c)).
  destruct (grow_len (ms_data s) (st + n * c)) as [G1 G2]. fold d1 in G1, G2.
  eexists; eexists.
  split; [reflexivity|]. cbn [ms_rows ms_headers ms_data ms_size].
  split; [reflexivity|]. split; [reflexivity|]. split; [exact G1|].
  assert (Gd : forall q, q < hsend n (ms_headers s) -> nth q d1 k0 = nth q (ms_data s) k0).
  { intros. apply grow_nth. lia. }
  destruct (store_spec (n * c) n st src
             (fun p => prod_mat n (f :: fs) (p mod n) (p / n)) d1) as (L & O & I); [lia| |].
  { intros p d' Hp Hlen Hq. apply Hsrc; auto. intros q Hq'.
    rewrite Hq by lia. apply Gd; auto. }
  split.
  - unfold assign_top, view. cbn [ms_rows ms_headers ms_data ms_size h_cols h_idx].
    rewrite (proj2 (Nat.leb_le _ _)) by exact G2. cbn [bind].
    rewrite Nat.eqb_refl. reflexivity.
  - split.
    + unfold Inv. cbn [ms_rows ms_headers ms_data ms_size]. repeat split; auto.
      * cbn [h_idx hsend]. lia.
      * cbn [h_idx h_cols]. rewrite L. lia.
      * cbn [h_idx h_cols]. rewrite Hspace. lia.
      * cbn [h_idx h_cols]. intros i j Hi Hj.
        pose proof (flat_lt i j n c Hi Hj).
        rewrite I by auto. rewrite flat_mod, flat_div by auto. reflexivity.
      * apply layout_data with (d := ms_data s); auto. lia.
        intros p Hp. rewrite O by lia. apply Gd; auto.
    + intros q Hq. cbn [ms_data]. rewrite O by lia. apply Gd; auto.
Qed.

(** the operation of the model that an abstract action stands for *)
Definition op_of (a : @action K) : @op K :=
  match a with
  | APush (FMat r c M) => PushM (mkD r c M)
  | APush (FScal a) => PushS a
  | APop => Pop
  end.

Lemma matrix_below_top : forall n al (s1 : mstack) h hs,
  ms_rows s1 = n -> ms_headers s1 = al :: h :: hs -> hend n h <= length (ms_data s1) ->
  exists v, ms_matrix s1 (ms_num s1 - 2) = Ok v.
Proof.
  intros n al s1 h hs Hr Hh Hle. unfold ms_matrix, ms_num. rewrite Hh. cbn [length].
  replace (S (S (length hs)) - 2 <? S (S (length hs))) with true
    by (symmetry; apply Nat.ltb_lt; lia).
  replace (S (S (length hs)) - 1 - (S (S (length hs)) - 2)) with 1 by lia.
  cbn [nth_error]. unfold view. rewrite Hr.
  rewrite (proj2 (Nat.leb_le _ _)) by auto. eauto.
Qed.

Lemma step_push : forall n al s fs f,
  0 < al -> Inv n al s fs ->
  match f with FMat r _ _ => r = prod_cols n fs | FScal _ => True end ->
  fits n al (f :: fs) ->
  exists s', ms_step al s (op_of (APush f)) = Ok s' /\ Inv n al s' (f :: fs) /\
    (forall q, q < hsend n (ms_headers s) -> nth q (ms_data s') k0 = nth q (ms_data s) k0) /\
    exists h, ms_headers s' = h :: ms_headers s.
Proof.
  intros n al s fs f Hal HI Hdim Hfit.
  pose proof HI as (Hr & Hl & Hs & Hsp).
  destruct f as [r c M|a]; cbn [op_of ms_step].
  - subst r. unfold ms_push. cbn [d_rows d_cols d_at].
    destruct (ms_headers s) as [|h hs] eqn:Hh; destruct fs as [|g fs]; cbn [layout] in Hl; try contradiction.
    + (* empty *)
      cbn [prod_cols] in *. rewrite Hr, Nat.eqb_refl.
      destruct (alloc_store_inv n al s [] (FMat n c M) (fun _ i j => M i j) Hal HI Hfit)
        as (s1 & s2 & A1 & A2 & A3 & A4 & A5 & A6 & A7).
      { intros p d' Hp _. cbn [prod_cols prod_mat] in *. unfold mmul, mid.
        symmetry. apply ksum_delta_l with (f := fun k => M k (p / n)).
        apply Nat.mod_upper_bound. intro; subst n; simpl in Hp; lia. }
      cbn [prod_cols] in *. rewrite A1. cbn [bind]. rewrite A5.
      exists s2. rewrite Hh in A7. split; auto. split; auto. split; auto.
      unfold assign_top in A5. rewrite A3, Hh in A5. cbn in A5.
      destruct (view s1 _); cbn in A5; try discriminate.
      rewrite Nat.eqb_refl in A5. injection A5 as <-. cbn. eauto.
    + destruct Hl as (L1 & L2 & L3 & L4 & L5 & L6 & L7).
      rewrite L3, Nat.eqb_refl.
      destruct (alloc_store_inv n al s (g :: fs) (FMat (prod_cols n (g :: fs)) c M)
         (fun d i j => ksum (prod_cols n (g :: fs))
             (fun k => kmul (nth (h_idx h + (i + k * n)) d k0) (M k j))) Hal HI Hfit)
        as (s1 & s2 & A1 & A2 & A3 & A4 & A5 & A6 & A7).
      { intros p d' Hp Hq. change (prod_cols n (FMat (prod_cols n (g :: fs)) c M :: g :: fs)) with c in Hp.
        change (prod_mat n (FMat (prod_cols n (g :: fs)) c M :: g :: fs) (p mod n) (p / n))
          with (mmul (prod_cols n (g :: fs)) (prod_mat n (g :: fs)) M (p mod n) (p / n)).
        unfold mmul. apply ksum_ext. intros k Hk.
        assert (Hpn : p mod n < n). { apply Nat.mod_upper_bound. intro; subst n; simpl in Hp; lia. }
        rewrite Hh in Hq. cbn [hsend] in Hq.
        rewrite Hq. rewrite L6; auto. rewrite L3; auto.
        rewrite L3. pose proof (flat_lt (p mod n) k n (prod_cols n (g :: fs)) Hpn Hk). lia. }
      change (prod_cols n (FMat (prod_cols n (g :: fs)) c M :: g :: fs)) with c in *.
      rewrite A1. cbn [bind].
      rewrite Hh in A3.
      destruct (matrix_below_top n _ s1 h hs A2 A3) as (v & Hv); [lia|].
      rewrite Hv. cbn [bind]. rewrite A2. rewrite A5. exists s2. rewrite Hh in A7.
      split; auto. split; auto. split; auto.
      unfold assign_top in A5. rewrite A3 in A5. cbn in A5.
      destruct (view s1 _); cbn in A5; try discriminate.
      rewrite Nat.eqb_refl in A5. injection A5 as <-. cbn. eauto.
  - unfold ms_push_scalar.
    destruct (ms_headers s) as [|h hs] eqn:Hh; destruct fs as [|g fs]; cbn [layout] in Hl; try contradiction.
    + destruct (alloc_store_inv n al s [] (FScal a) (fun _ i j => kmul (delta i j) a) Hal HI Hfit)
        as (s1 & s2 & A1 & A2 & A3 & A4 & A5 & A6 & A7).
      { intros p d' Hp _. cbn [prod_cols prod_mat] in *. unfold mscale, mid. ring. }
      cbn [prod_cols] in *. rewrite Hr, A1. cbn [bind]. rewrite A5.
      exists s2. rewrite Hh in A7. split; auto. split; auto. split; auto.
      unfold assign_top in A5. rewrite A3, Hh in A5. cbn in A5.
      destruct (view s1 _); cbn in A5; try discriminate.
      rewrite Nat.eqb_refl in A5. injection A5 as <-. cbn. eauto.
    + destruct Hl as (L1 & L2 & L3 & L4 & L5 & L6 & L7).
      destruct (alloc_store_inv n al s (g :: fs) (FScal a)
         (fun d i j => kmul (nth (h_idx h + (i + j * n)) d k0) a) Hal HI Hfit)
        as (s1 & s2 & A1 & A2 & A3 & A4 & A5 & A6 & A7).
      { intros p d' Hp Hq. change (prod_cols n (FScal a :: g :: fs)) with (prod_cols n (g :: fs)) in Hp.
        change (prod_mat n (FScal a :: g :: fs) (p mod n) (p / n))
          with (kmul a (prod_mat n (g :: fs) (p mod n) (p / n))).
        assert (Hn : n <> 0) by (intro; subst n; simpl in Hp; lia).
        assert (Hpn : p mod n < n) by (apply Nat.mod_upper_bound; auto).
        assert (Hpc : p / n < prod_cols n (g :: fs)) by (apply Nat.div_lt_upper_bound; auto).
        rewrite Hh in Hq. cbn [hsend] in Hq.
        rewrite Hq. rewrite L6; auto. ring. rewrite L3; auto.
        rewrite L3. pose proof (flat_lt (p mod n) (p / n) n (prod_cols n (g :: fs)) Hpn Hpc). lia. }
      change (prod_cols n (FScal a :: g :: fs)) with (prod_cols n (g :: fs)) in *.
      rewrite L3, A1. cbn [bind].
      rewrite Hh in A3.
      destruct (matrix_below_top n _ s1 h hs A2 A3) as (v & Hv); [lia|].
      rewrite Hv. cbn [bind]. rewrite A2. rewrite A5. exists s2. rewrite Hh in A7.
      split; auto. split; auto. split; auto.
      unfold assign_top in A5. rewrite A3 in A5. cbn in A5.
      destruct (view s1 _); cbn in A5; try discriminate.
      rewrite Nat.eqb_refl in A5. injection A5 as <-. cbn. eauto.
Qed.

Lemma step_pop : forall n al s f fs,
  Inv n al s (f :: fs) ->
  exists s', ms_step al s Pop = Ok s' /\ Inv n al s' fs /\ ms_data s' = ms_data s /\
             ms_headers s' = tl (ms_headers s).
Proof.
  intros n al s f fs (Hr & Hl & Hs & Hsp). cbn [ms_step]. unfold ms_pop.
  destruct (ms_headers s) as [|h hs]; cbn [layout] in Hl; [contradiction|].
  destruct Hl as (L1 & L2 & L3 & L4 & L5 & L6 & L7).
  eexists; split; [reflexivity|]. split; [|split; reflexivity].
  assert (Hsp' : (N.of_nat (space n al fs) < 4294967296)%N).
  { cbn [space] in Hsp. lia. }
  unfold Inv; cbn. repeat split; auto.
  rewrite Hr. destruct hs as [|h' hs]; auto.
  destruct (layout_hsend _ _ _ _ _ L7) as [_ E]. cbn [hsend] in E.
  apply wrap32_small. cbn [hsend]. lia.
Qed.

Lemma run_inv : forall n al fs acts fs', 0 < al -> aruns n al fs acts fs' ->
  forall s, Inv n al s fs -> exists s', ms_run al s (map op_of acts) = Ok s' /\ Inv n al s' fs'.
Proof.
  intros n al fs acts fs' Hal H. induction H; intros s HI.
  - exists s; auto.
  - destruct (step_push n al s fs f Hal HI H H0) as (s1 & E & I1 & _).
    destruct (IHaruns s1 I1) as (s2 & E2 & I2).
    exists s2. cbn [map ms_run]. rewrite E. cbn [bind]. auto.
  - destruct (step_pop n al s f fs HI) as (s1 & E & I1 & _).
    destruct (IHaruns s1 I1) as (s2 & E2 & I2).
    exists s2. cbn [map ms_run op_of]. rewrite E. cbn [bind]. auto.
Qed.

Lemma init_inv : forall n al a b, (N.of_nat n < 65536)%N -> Inv n al (ms_init n a b) [].
Proof.
  intros. unfold Inv, ms_init; cbn. rewrite wrap16_small by auto. repeat split; auto.
Qed.

Lemma Inv_num : forall n al s fs, Inv n al s fs -> ms_num s = length fs.
Proof.
  intros n al s fs (_ & Hl & _). unfold ms_num. revert Hl. generalize (ms_headers s) (ms_data s).
  intros hs d. revert fs. induction hs as [|h hs IH]; intros [|f fs]; cbn [layout]; intros H; try contradiction; auto.
  cbn [length]. f_equal. apply IH. apply H.
Qed.

(** the i-th matrix from the top is the product of the factors below it *)
Lemma Inv_nth : forall n al s fs k, Inv n al s fs -> k < length fs ->
  exists h, nth_error (ms_headers s) k = Some h /\
    exists v, view s h = Ok v /\ d_rows v = n /\ d_cols v = prod_cols n (skipn k fs) /\
      meq n (d_cols v) (d_at v) (prod_mat n (skipn k fs)).
Proof.
  intros n al s fs k (Hr & Hl & _). unfold view. rewrite Hr. revert Hl.
  generalize (ms_headers s) (ms_data s). intros hs d. revert fs k.
  induction hs as [|h hs IH]; intros [|f fs] k; cbn [layout]; intros H Hk; try contradiction;
    cbn [length] in Hk; try lia.
  destruct H as (L1 & L2 & L3 & L4 & L5 & L6 & L7).
  destruct k.
  - exists h; split; auto. rewrite (proj2 (Nat.leb_le _ _)) by auto.
    eexists; split; [reflexivity|]. cbn [d_rows d_cols d_at skipn]. repeat split; auto.
  - cbn [nth_error skipn]. apply IH; auto. lia.
Qed.

Lemma Inv_top : forall n al s f fs, Inv n al s (f :: fs) ->
  exists v, ms_top s = Ok v /\ d_rows v = n /\ d_cols v = prod_cols n (f :: fs) /\
    meq n (d_cols v) (d_at v) (prod_mat n (f :: fs)).
Proof.
  intros n al s f fs HI. destruct (Inv_nth n al s (f :: fs) 0 HI) as (h & Hh & Hv); [cbn; lia|].
  unfold ms_top. destruct (ms_headers s) as [|h0 hs]; cbn in Hh; [discriminate|].
  injection Hh as ->. exact Hv.
Qed.

Lemma Inv_matrix : forall n al s fs i, Inv n al s fs -> i < length fs ->
  exists v, ms_matrix s i = Ok v /\ d_rows v = n /\
    d_cols v = prod_cols n (skipn (length fs - 1 - i) fs) /\
    meq n (d_cols v) (d_at v) (prod_mat n (skipn (length fs - 1 - i) fs)).
Proof.
  intros n al s fs i HI Hi. pose proof (Inv_num _ _ _ _ HI) as Hn.
  destruct (Inv_nth n al s fs (length fs - 1 - i) HI) as (h & Hh & Hv); [lia|].
  unfold ms_matrix. rewrite Hn. rewrite (proj2 (Nat.ltb_lt _ _)) by auto. rewrite Hh. exact Hv.
Qed.

(** regions of all live headers *)
Lemma layout_regions : forall n al d hs fs, layout n al d hs fs ->
  forall a ha, nth_error hs a = Some ha ->
    h_idx ha mod al = 0 /\ hend n ha <= length d /\
    forall b hb, a < b -> nth_error hs b = Some hb -> hend n hb <= h_idx ha.
Proof.
  induction hs as [|h hs IH]; intros [|f fs]; cbn [layout]; intros H a ha Ha; try contradiction.
  - destruct a; discriminate.
  - destruct H as (L1 & L2 & L3 & L4 & L5 & L6 & L7).
    destruct a.
    + cbn in Ha. injection Ha as <-. repeat split; auto.
      intros b hb Hab Hb. destruct b; [lia|]. cbn in Hb.
      clear - L2 L7 Hb IH.
      destruct b.
      * destruct hs; cbn in *; [discriminate|]. injection Hb as ->. exact L2.
      * destruct hs as [|h1 hs]; [discriminate|].
        destruct (IH _ L7 0 h1 eq_refl) as (_ & _ & H3).
        specialize (H3 (S b) hb ltac:(lia) Hb). cbn [hsend] in L2. lia.
    + cbn in Ha. destruct (IH _ L7 a ha Ha) as (A1 & A2 & A3).
      repeat split; auto. intros b hb Hab Hb. destruct b; [lia|]. apply A3 with (b := b); auto. lia.
Qed.

Lemma chain_product : forall n cap est al acts fs,
  0 < al -> (N.of_nat n < 65536)%N -> aruns n al [] acts fs ->
  exists s, ms_run al (ms_init n cap est) (map op_of acts) = Ok s /\
    ms_num s = length fs /\
    forall i, i < length fs ->
      exists v, ms_matrix s i = Ok v /\ d_rows v = n /\
        d_cols v = prod_cols n (skipn (length fs - 1 - i) fs) /\
        meq n (d_cols v) (d_at v) (prod_mat n (skipn (length fs - 1 - i) fs)).
Proof.
  intros n cap est al acts fs Hal Hn H.
  destruct (run_inv n al [] acts fs Hal H (ms_init n cap est) (init_inv n al cap est Hn)) as (s & E & I).
  exists s. split; auto. split. eapply Inv_num; eauto. intros; eapply Inv_matrix; eauto.
Qed.

Lemma top_product : forall n cap est al acts fs,
  0 < al -> (N.of_nat n < 65536)%N -> aruns n al [] acts fs ->
  exists s, ms_run al (ms_init n cap est) (map op_of acts) = Ok s /\
    ms_num s = length fs /\
    match fs with
    | [] => ms_top s = Throw
    | _ => exists v, ms_top s = Ok v /\ d_rows v = n /\ d_cols v = prod_cols n fs /\
             meq n (prod_cols n fs) (d_at v) (prod_mat n fs)
    end.
Proof.
  intros n cap est al acts fs Hal Hn H.
  destruct (run_inv n al [] acts fs Hal H (ms_init n cap est) (init_inv n al cap est Hn)) as (s & E & I).
  exists s. split; auto. split. eapply Inv_num; eauto.
  destruct fs.
  - destruct I as (_ & Hl & _). unfold ms_top. destruct (ms_headers s); auto. contradiction.
  - destruct (Inv_top _ _ _ _ _ I) as (v & V1 & V2 & V3 & V4). exists v. rewrite V3 in V4. auto.
Qed.

Lemma push_pop_same : forall n cap est al acts fs f s,
  0 < al -> (N.of_nat n < 65536)%N -> aruns n al [] acts fs ->
  aruns n al fs [APush f; APop] fs ->
  ms_run al (ms_init n cap est) (map op_of acts) = Ok s ->
  exists s', ms_run al s [op_of (APush f); Pop] = Ok s' /\ ms_headers s' = ms_headers s /\
    ms_size s' = ms_size s /\
    forall h v, In h (ms_headers s) -> view s h = Ok v ->
      exists v', view s' h = Ok v' /\ meq n (d_cols v) (d_at v') (d_at v).
Proof.
  intros n cap est al acts fs f s Hal Hn H Hf E.
  destruct (run_inv n al [] acts fs Hal H (ms_init n cap est) (init_inv n al cap est Hn)) as (s0 & E0 & I).
  rewrite E in E0; injection E0 as <-.
  inversion Hf; subst.
  destruct (step_push n al s fs f Hal I H2 H4) as (s1 & E1 & I1 & D1 & (h1 & Hh1)).
  destruct (step_pop n al s1 f fs I1) as (s2 & E2 & I2 & D2 & Hh2).
  exists s2. cbn [ms_run]. rewrite E1. cbn [bind]. rewrite E2. cbn [bind].
  split; auto. rewrite Hh1 in Hh2. cbn [tl] in Hh2. split; auto.
  destruct I as (Hr & Hl & Hs & Hsp). destruct I2 as (Hr2 & Hl2 & Hs2 & Hsp2).
  split. rewrite Hs, Hs2, Hh2; reflexivity.
  intros h v Hin Hv. apply In_nth_error in Hin. destruct Hin as (k & Hk).
  destruct (layout_regions _ _ _ _ _ Hl k h Hk) as (_ & B & _).
  assert (Hkk : hend n h <= hsend n (ms_headers s)).
  { destruct (ms_headers s) as [|h0 hs] eqn:Hh; [destruct k; discriminate|]. cbn [hsend].
    destruct k; [cbn in Hk; injection Hk as ->; lia|].
    destruct (layout_regions _ _ _ _ _ Hl 0 h0 eq_refl) as (_ & _ & C).
    specialize (C (S k) h ltac:(lia) Hk). lia. }
  destruct (layout_regions n al _ _ _ Hl2 k h) as (_ & B2 & _). rewrite Hh2; auto.
  unfold view in Hv |- *. rewrite Hr in Hv. rewrite Hr2.
  rewrite (proj2 (Nat.leb_le _ _)) in Hv by auto.
  rewrite (proj2 (Nat.leb_le _ _)) by auto.
  injection Hv as <-. eexists; split; [reflexivity|]. cbn [d_cols d_at].
  intros i j Hi Hj. rewrite D2. apply D1.
  pose proof (flat_lt i j n (h_cols h) Hi Hj). lia.
Qed.

Lemma regions : forall n cap est al acts fs,
  0 < al -> (N.of_nat n < 65536)%N -> aruns n al [] acts fs ->
  exists s, ms_run al (ms_init n cap est) (map op_of acts) = Ok s /\
    forall a ha, nth_error (ms_headers s) a = Some ha ->
      h_idx ha mod al = 0 /\ h_idx ha + n * h_cols ha <= length (ms_data s) /\
      forall b hb, a <> b -> nth_error (ms_headers s) b = Some hb ->
        h_idx hb + n * h_cols hb <= h_idx ha \/ h_idx ha + n * h_cols ha <= h_idx hb.
Proof.
  intros n cap est al acts fs Hal Hn H.
  destruct (run_inv n al [] acts fs Hal H (ms_init n cap est) (init_inv n al cap est Hn)) as (s & E & I).
  exists s. split; auto. intros a ha Ha. destruct I as (_ & Hl & _).
  destruct (layout_regions _ _ _ _ _ Hl a ha Ha) as (A1 & A2 & A3).
  repeat split; auto. intros b hb Hab Hb.
  destruct (Nat.lt_gt_cases a b) as [Hlt _]. destruct (Hlt Hab) as [L|L].
  - left. eauto.
  - right. destruct (layout_regions _ _ _ _ _ Hl b hb Hb) as (_ & _ & B3). eauto.
Qed.

Lemma empty_throws : forall al (s : @mstack K), ms_headers s = [] ->
  ms_top s = Throw /\ ms_step al s Pop = Throw /\ forall i, ms_matrix s i = Throw.
Proof.
  intros al s H. unfold ms_top, ms_step, ms_pop, ms_matrix, ms_num. rewrite H. cbn. auto.
Qed.

Lemma run_app : forall al (s : @mstack K) l1 l2,
  ms_run al s (l1 ++ l2) = bind (ms_run al s l1) (fun s' => ms_run al s' l2).
Proof.
  intros al s l1; revert s. induction l1; intros; cbn [app ms_run]; [reflexivity|].
  destruct (ms_step al s a); cbn [bind]; auto.
Qed.
End Proofs.

Lemma wide_push :
  exists (m : @dmat Z), d_rows m = 1 /\ N.of_nat (d_cols m) = 65536%N /\
    ms_push 2 (ms_init 1 0 0) m = UB.
Proof.
  exists (mkD 1 (N.to_nat 65536) (fun _ _ => 0%Z)). cbn [d_rows d_cols].
  split; [reflexivity|]. split; [apply Nnat.N2Nat.id|]. vm_compute. reflexivity.
Qed.
