(** * Proofs about the compressed-column matrix: Jacobians, histories, products, the builder *)
From Coq Require Import Arith Lia List ZArith Bool Sorting.Sorted Sorting.Permutation.
From Verif Require Import Lib_Ring Lib_Res CCM_Model CCM_Spec CCM_Proofs.
Import ListNotations.

(** ** writes *)
Lemma nth_error_ext : forall T (a b : list T), (forall i, nth_error a i = nth_error b i) -> a = b.
Proof.
  induction a as [|x a IH]; intros [|y b] H; auto.
  - specialize (H 0). discriminate.
  - specialize (H 0). discriminate.
  - pose proof (H 0) as E. injection E as ->. f_equal. apply IH. intros i. exact (H (S i)).
Qed.
Lemma puts_final : forall T (V : list T) ws a, length a = length V ->
  (forall i v, In (i, v) ws -> nth_error V i = Some v) ->
  (forall i, (exists v, In (i, v) ws) \/ nth_error a i = nth_error V i) -> puts ws a = Ok V.
Proof.
  intros T V. induction ws as [|[i v] ws IH]; intros a L F C; cbn [puts].
  - f_equal. apply nth_error_ext. intros i. destruct (C i) as [(v & [])|]; auto.
  - pose proof (F i v (or_introl eq_refl)) as E. assert (I : i < length a) by (rewrite L; apply nth_error_Some; rewrite E; discriminate).
    rewrite (proj2 (Nat.ltb_lt _ _) I). apply IH.
    + rewrite upd_length. auto.
    + intros j u H. apply F. right; auto.
    + intros j. destruct (Nat.eq_dec i j) as [<-|N].
      * right. rewrite nth_error_upd_same by auto. auto.
      * destruct (C j) as [(u & [X|X])|X]; [injection X as -> _; tauto|left; eauto|right]. rewrite nth_error_upd_other by auto. auto.
Qed.

(** blocks of columns, abstractly: width and content *)
Section Blocks.
  Context {T : Type}.
  Definition blk := (nat * (nat -> nat -> T))%type.
  Definition width (bs : list blk) : nat := list_sum (map fst bs).
  Fixpoint bw (start epc jrows off : nat) (bs : list blk) : list (nat * T) :=
    match bs with
    | [] => []
    | b :: bs' => flat_map (fun c => map (fun r => (start + c * epc + off + r, snd b c r)) (seq 0 (fst b))) (seq 0 jrows) ++ bw start epc jrows (off + fst b) bs'
    end.
  Definition content (bs : list blk) (c : nat) : list T := flat_map (fun b => map (snd b c) (seq 0 (fst b))) bs.

  Lemma width_cons : forall b bs, width (b :: bs) = fst b + width bs. Proof. reflexivity. Qed.
  Lemma width_nil : width [] = 0. Proof. reflexivity. Qed.
  Lemma width_app : forall a b, width (a ++ b) = width a + width b. Proof. intros. unfold width. rewrite map_app, list_sum_app. auto. Qed.
  Lemma in_bw : forall start epc jrows bs off i v, In (i, v) (bw start epc jrows off bs) <->
    exists pre b post c r, bs = pre ++ b :: post /\ c < jrows /\ r < fst b /\ i = start + c * epc + (off + width pre) + r /\ v = snd b c r.
  Proof.
    intros start epc jrows. induction bs as [|b bs IH]; intros off i v; cbn [bw].
    - split; [intros []|]. intros (pre & b & post & c & r & E & _). destruct pre; discriminate.
    - rewrite in_app_iff, IH. split.
      + intros [H|(pre & b' & post & c & r & E & H1 & H2 & H3 & H4)].
        * apply in_flat_map in H. destruct H as (c & Hc & H). apply in_map_iff in H. destruct H as (r & H & Hr). apply in_seq in Hc, Hr. injection H as <- <-.
          exists [], b, bs, c, r. rewrite width_nil. repeat split; auto; lia.
        * exists (b :: pre), b', post, c, r. subst bs. rewrite width_cons. repeat split; auto. lia.
      + intros (pre & b' & post & c & r & E & H1 & H2 & H3 & H4). destruct pre as [|b0 pre].
        * injection E as <- <-. left. apply in_flat_map. exists c. split; [apply in_seq; lia|]. apply in_map_iff. exists r. split; [|apply in_seq; lia].
          subst. f_equal. rewrite width_nil. lia.
        * injection E as <- E. right. exists pre, b', post, c, r. repeat split; auto. rewrite width_cons in H3. lia.
  Qed.

  Lemma content_length : forall bs c, length (content bs c) = width bs.
  Proof.
    induction bs as [|b bs IH]; intros c; auto. rewrite width_cons. unfold content in *. cbn [flat_map].
    rewrite app_length, map_length, seq_length, IH. auto.
  Qed.
  Lemma content_nth : forall pre b post c r, r < fst b -> nth_error (content (pre ++ b :: post) c) (width pre + r) = Some (snd b c r).
  Proof.
    intros. unfold content. rewrite flat_map_app. cbn [flat_map]. fold (content pre c). rewrite nth_error_app2 by (rewrite content_length; lia).
    rewrite content_length. replace (width pre + r - width pre) with r by lia. rewrite nth_error_app1 by (rewrite map_length, seq_length; auto).
    apply map_nth_error. rewrite nth_error_nth_lt with (d := 0) by (rewrite seq_length; auto). rewrite seq_nth by auto. auto.
  Qed.
  Lemma content_cover : forall bs k, k < width bs -> exists pre b post r, bs = pre ++ b :: post /\ r < fst b /\ k = width pre + r.
  Proof.
    induction bs as [|b bs IH]; intros k H; [rewrite width_nil in H; lia|]. rewrite width_cons in H. destruct (Nat.lt_ge_cases k (fst b)) as [L|L].
    - exists [], b, bs, k. rewrite width_nil. auto.
    - destruct (IH (k - fst b)) as (pre & b' & post & r & -> & R1 & R2); [lia|]. exists (b :: pre), b', post, r.
      rewrite width_cons. repeat split; auto. lia.
  Qed.

  Lemma flat_const : forall (g : nat -> list T) w, (forall c, length (g c) = w) -> forall n a c k, c < n -> k < w ->
    nth_error (flat_map g (seq a n)) (c * w + k) = nth_error (g (a + c)) k.
  Proof.
    intros g w G. induction n as [|n IH]; intros a c k Hc Hk; [lia|]. cbn [seq flat_map]. destruct c as [|c].
    - cbn [Nat.mul Nat.add]. rewrite nth_error_app1 by (rewrite G; auto). rewrite Nat.add_0_r. auto.
    - rewrite nth_error_app2 by (rewrite G; cbn; lia). rewrite G. cbn [Nat.mul]. replace (w + c * w + k - w) with (c * w + k) by lia.
      rewrite IH by lia. f_equal. f_equal. lia.
  Qed.
  Lemma flat_const_len : forall (g : nat -> list T) w, (forall c, length (g c) = w) -> forall n a, length (flat_map g (seq a n)) = w * n.
  Proof. intros g w G. induction n as [|n IH]; intros a; cbn [seq flat_map]; [cbn; lia|]. rewrite app_length, G, IH. lia. Qed.

  (* the writes for a matrix of blocks fill exactly the segment of its columns *)
  Lemma bw_fill : forall bs jrows start, let epc := width bs in let V := flat_map (content bs) (seq 0 jrows) in
    length V = epc * jrows /\
    (forall i v, In (i, v) (bw start epc jrows 0 bs) -> start <= i < start + epc * jrows /\ nth_error V (i - start) = Some v) /\
    (forall i, start <= i < start + epc * jrows -> exists v, In (i, v) (bw start epc jrows 0 bs)).
  Proof.
    intros bs jrows start epc V. pose proof (flat_const_len (content bs) epc (content_length bs) jrows 0) as L. split; auto. split.
    - intros i v H. apply in_bw in H. destruct H as (pre & b & post & c & r & E & H1 & H2 & H3 & H4). subst v.
      assert (W : width pre + r < epc). { unfold epc. rewrite E, width_app, width_cons. lia. }
      assert (c * epc + epc <= epc * jrows) by nia. split; [lia|]. replace (i - start) with (c * epc + (width pre + r)) by lia.
      unfold V. rewrite (flat_const _ epc (content_length bs)) by auto. rewrite E. apply content_nth. auto.
    - intros i Hi. assert (P : 0 < epc) by (destruct epc; cbn in Hi; lia).
      pose proof (Nat.div_mod (i - start) epc ltac:(lia)) as D. pose proof (Nat.mod_upper_bound (i - start) epc ltac:(lia)) as M.
      destruct (content_cover bs ((i - start) mod epc) M) as (pre & b & post & r & E & R1 & R2).
      exists (snd b ((i - start) / epc) r). apply in_bw. exists pre, b, post, ((i - start) / epc), r. repeat split; auto.
      + apply Nat.div_lt_upper_bound; lia.
      + rewrite Nat.add_0_l. rewrite <- Nat.add_assoc, <- R2. lia.
  Qed.
End Blocks.

Lemma row_writes_bw : forall start epc jrows dvs off, row_writes start epc jrows off dvs = bw start epc jrows off (map (fun d => (j_dim d, fun _ r => j_base d + r)) dvs).
Proof. intros start epc jrows. induction dvs as [|d dvs IH]; intros off; cbn [row_writes map bw fst snd]; auto. rewrite IH. auto. Qed.
Lemma value_writes_bw : forall K p jrows (jc : list (jblock K)) off, Forall (fun b => jb_rows b = jrows) jc ->
  value_writes p off jc = bw (p_start p) (p_epc p) jrows off (map (fun b => (jb_cols b, jb_mat b)) jc).
Proof.
  intros K p jrows. induction jc as [|b jc IH]; intros off F; cbn [value_writes map bw fst snd]; auto. inversion F as [|? ? F1 F2]; subst. rewrite IH by auto. auto.
Qed.

(** ** sorting *)
Lemma insert_sorted : forall l1 l2 x, Forall (fun y => (j_block y < j_block x)%Z) l1 -> Forall (fun y => (j_block x < j_block y)%Z) l2 ->
  insert x (l1 ++ l2) = l1 ++ x :: l2.
Proof.
  induction l1 as [|y l1 IH]; intros l2 x F1 F2; cbn [app insert].
  - destruct l2 as [|y l2]; cbn [insert]; auto. inversion F2; subst. rewrite (proj2 (Z.ltb_lt _ _)) by auto. auto.
  - inversion F1; subst. rewrite (proj2 (Z.ltb_ge _ _)) by lia. f_equal. apply IH; auto.
Qed.
Lemma sorted_split : forall T (P : T -> T -> Prop) l1 x l2, StronglySorted P (l1 ++ x :: l2) ->
  Forall (fun y => P y x) l1 /\ Forall (P x) l2 /\ StronglySorted P (l1 ++ l2).
Proof.
  induction l1 as [|y l1 IH]; intros x l2 S; cbn [app] in *; apply StronglySorted_inv in S; destruct S as [S F].
  - split; [constructor|]. split; auto.
  - destruct (IH x l2 S) as (I1 & I2 & I3). rewrite Forall_forall in F. split; [constructor; auto; apply F; apply in_elt|]. split; auto.
    constructor; auto. apply Forall_forall. intros u H. apply F. apply in_app_iff in H. apply in_app_iff. destruct H; [left|right; right]; auto.
Qed.
Lemma sort_unique : forall l' l, Permutation l' l -> StronglySorted (fun a b => (j_block a < j_block b)%Z) l -> sort_dvs l' = l.
Proof.
  induction l' as [|x l' IH]; intros l P S.
  - apply Permutation_nil in P. subst. auto.
  - assert (I : In x l) by (apply (Permutation_in x P); left; auto). apply in_split in I. destruct I as (l1 & l2 & ->).
    apply Permutation_cons_app_inv in P. destruct (sorted_split _ _ _ _ _ S) as (F1 & F2 & S2). cbn [sort_dvs]. rewrite (IH _ P S2). apply insert_sorted; auto.
Qed.

Section CCMP2.
  Context {K : Type}.
  Variable z : K.
  Notation wf := (@well_formed K).
  Notation means := (stands_for z).
  Notation add_cols := (@add_cols K).

  Lemma pop_pushed : forall d (m : ccm K), wf m -> length d = c_rows m -> c_diag m = false -> popDiagonal (pushed d m) = Ok m.
  Proof.
    intros d m W L D. unfold popDiagonal, pushed. cbn [c_diag c_vals c_ri c_cp c_rows c_cols c_acc negb]. unfold shrink.
    assert (X : forall T (u v : list T) n, length v = n -> (if n <=? length (u ++ v) then Ok (firstn (length (u ++ v) - n) (u ++ v)) else Throw) = Ok u).
    { intros T u v n E. rewrite app_length. rewrite (proj2 (Nat.leb_le _ _)) by lia. replace (length u + length v - n) with (length u) by lia.
      rewrite firstn_app, Nat.sub_diag, firstn_all. cbn. rewrite app_nil_r. auto. }
    rewrite (X _ (c_vals m) d) by auto. cbn [bind]. rewrite (X _ (c_ri m)) by apply seq_length. cbn [bind]. rewrite (X _ (c_cp m)) by (rewrite map_length, seq_length; auto).
    cbn [bind]. rewrite Nat.add_sub. replace (mkCcm (c_rows m) (c_cols m) (c_vals m) (c_ri m) (c_cp m) false (c_acc m)) with m by (destruct m; cbn in *; subst; auto).
    unfold checked. rewrite (wf_consistent _ W). auto.
  Qed.
  Lemma update_pushed : forall d d' (m : ccm K), length d = c_rows m -> length d' = c_rows m -> updateDiagonal d' (pushed d m) = Ok (pushed d' m).
  Proof.
    intros d d' m L L'. unfold updateDiagonal, pushed. cbn [c_diag c_vals c_ri c_cp c_rows c_cols c_acc negb]. rewrite L', Nat.eqb_refl, app_length.
    rewrite (proj2 (Nat.leb_le _ _)) by lia. cbn [andb]. replace (length (c_vals m) + length d - c_rows m) with (length (c_vals m)) by lia.
    rewrite firstn_app, Nat.sub_diag, firstn_all. cbn [firstn]. rewrite app_nil_r. auto.
  Qed.

  (** ** Jacobians *)
  Definition jac_col (jc : list (jblock K)) (c : nat) : list (nat * K) :=
    flat_map (fun b => map (fun r => (j_base (jb_dv b) + r, jb_mat b c r)) (seq 0 (j_dim (jb_dv b)))) jc.
  Lemma flat_map_map : forall A B C (g : B -> C) (f : A -> list B) l, map g (flat_map f l) = flat_map (fun x => map g (f x)) l.
  Proof. intros A B C g f. induction l as [|x l IH]; cbn; auto. rewrite map_app, IH. auto. Qed.
  Lemma flat_map_ext_in : forall A B (f g : A -> list B) l, (forall x, In x l -> f x = g x) -> flat_map f l = flat_map g l.
  Proof. intros A B f g. induction l as [|x l IH]; intros H; cbn; auto. rewrite H by (left; auto). rewrite IH; auto. intros; apply H; right; auto. Qed.
  Lemma flat_map_mapped : forall A B C (f : B -> list C) (g : A -> B) l, flat_map f (map g l) = flat_map (fun x => f (g x)) l.
  Proof. intros. rewrite !flat_map_concat_map, map_map. auto. Qed.

  Lemma jac_col_fst : forall jc c, map fst (jac_col jc c) = content (map (fun d => (j_dim d, fun _ r => j_base d + r)) (map jb_dv jc)) c.
  Proof. intros. unfold jac_col, content. rewrite flat_map_map, !flat_map_mapped. apply flat_map_ext_in. intros b _. rewrite map_map. auto. Qed.
  Lemma jac_col_snd : forall jrows rows jc c, jacobian_ok rows jrows jc -> map snd (jac_col jc c) = content (map (fun b => (jb_cols b, jb_mat b)) jc) c.
  Proof.
    intros jrows rows jc c (F & _). unfold jac_col, content. rewrite flat_map_map, !flat_map_mapped. apply flat_map_ext_in. intros b I. rewrite Forall_forall in F.
    destruct (F b I) as (_ & _ & E & _). rewrite map_map. cbn [fst snd]. rewrite E. auto.
  Qed.
  Lemma jac_col_length : forall jc c, length (jac_col jc c) = total_dim (map jb_dv jc).
  Proof.
    intros. rewrite <- (map_length fst), jac_col_fst, content_length. unfold width, total_dim. rewrite map_map. auto.
  Qed.

  Lemma ss_app : forall T (P : T -> T -> Prop) a b, StronglySorted P a -> StronglySorted P b -> (forall x y, In x a -> In y b -> P x y) -> StronglySorted P (a ++ b).
  Proof.
    induction a as [|x a IH]; intros b Sa Sb H; cbn [app]; auto. apply StronglySorted_inv in Sa. destruct Sa as [Sa F]. constructor.
    - apply IH; auto. intros; apply H; auto. right; auto.
    - apply Forall_forall. intros y I. apply in_app_iff in I. rewrite Forall_forall in F. destruct I; auto. apply H; auto. left; auto.
  Qed.
  Lemma in_jac_col : forall jc c r v, In (r, v) (jac_col jc c) <-> exists b k, In b jc /\ k < j_dim (jb_dv b) /\ r = j_base (jb_dv b) + k /\ v = jb_mat b c k.
  Proof.
    intros. unfold jac_col. rewrite in_flat_map. split.
    - intros (b & I & H). apply in_map_iff in H. destruct H as (k & H & Hk). injection H as <- <-. apply in_seq in Hk. exists b, k. repeat split; auto. lia.
    - intros (b & k & I & Hk & -> & ->). exists b. split; auto. apply in_map_iff. exists k. split; auto. apply in_seq. lia.
  Qed.
  Lemma jac_col_ok : forall rows jrows jc c, jacobian_ok rows jrows jc -> col_ok rows (jac_col jc c).
  Proof.
    intros rows jrows jc c (F & S). split.
    - apply Forall_forall. intros [r v] H. apply in_jac_col in H. destruct H as (b & k & I & Hk & -> & ->). rewrite Forall_forall in F. destruct (F b I) as (_ & _ & _ & L). cbn. lia.
    - induction S as [|b jc S IH B]; cbn [jac_col flat_map]; [constructor|]. inversion F as [|? ? F1 F2]; subst. apply ss_app; auto.
      + clear. generalize (j_base (jb_dv b)). intros a. generalize (jb_mat b c). intros v. generalize 0 as s. generalize (j_dim (jb_dv b)) as n.
        induction n as [|n IH]; intros s; cbn [seq map]; constructor; auto. apply Forall_forall. intros y H. apply in_map_iff in H. destruct H as (k & <- & H). apply in_seq in H. cbn. lia.
      + intros [r1 v1] [r2 v2] H1 H2. apply in_map_iff in H1. destruct H1 as (k & H1 & Hk). injection H1 as <- <-. apply in_seq in Hk.
        fold (jac_col jc c) in H2. apply in_jac_col in H2. destruct H2 as (b2 & k2 & I2 & Hk2 & -> & ->). rewrite Forall_forall in B. destruct (B b2 I2) as (_ & Q). cbn. lia.
  Qed.
  Lemma jac_lookup : forall rows jrows jc c r, jacobian_ok rows jrows jc -> lookup z (jac_col jc c) r = jac_entry z jc c r.
  Proof.
    intros rows jrows jc c r J. destruct (jac_col_ok rows jrows jc c J) as (_ & So). destruct J as (F & S). induction S as [|b jc S IH B]; cbn [jac_entry]; auto.
    inversion F as [|? ? F1 F2]; subst. cbv zeta. destruct (Nat.leb_spec (j_base (jb_dv b)) r) as [L1|L1]; destruct (Nat.ltb_spec r (j_base (jb_dv b) + j_dim (jb_dv b))) as [L2|L2]; cbn [andb].
    1: { apply lookup_in; auto. apply in_jac_col. exists b, (r - j_base (jb_dv b)). split; [left; auto|]. split; [lia|]. split; [lia|auto]. }
    all: assert (X : lookup z (jac_col (b :: jc) c) r = lookup z (jac_col jc c) r);
      [ cbn [jac_col flat_map]; fold (jac_col jc c);
        assert (Y : forall l t, (forall v, ~ In (r, v) l) -> lookup z (l ++ t) r = lookup z t r)
        by (clear; induction l as [|[i v] l IH]; intros t H; cbn [app lookup]; auto; destruct (Nat.eqb_spec i r) as [->|];
            [exfalso; apply (H v); left; auto|apply IH; intros u Hu; apply (H u); right; auto]);
        apply Y; intros v H; apply in_map_iff in H; destruct H as (k & H & Hk); injection H as H _; apply in_seq in Hk; lia
      | rewrite X; apply IH; auto; destruct (jac_col_ok rows jrows jc c) as (_ & Q); [split; auto|exact Q]].
  Qed.

  Lemma forall_len : forall jc n, Forall (fun c : list (nat * K) => length c = total_dim (map jb_dv jc)) (map (jac_col jc) (seq 0 n)).
  Proof. intros. apply Forall_forall. intros x H. apply in_map_iff in H. destruct H as (c & <- & _). apply jac_col_length. Qed.

  (* blocks with all values zero *)
  Definition zeroed (b : jblock K) : jblock K := mkJb (jb_dv b) (jb_rows b) (jb_cols b) (fun _ _ => z).
  Lemma zeroed_dvs : forall jc, map jb_dv (map zeroed jc) = map jb_dv jc. Proof. intros. rewrite map_map. auto. Qed.
  Lemma zeroed_ok : forall rows jrows jc, jacobian_ok rows jrows jc -> jacobian_ok rows jrows (map zeroed jc).
  Proof.
    intros rows jrows jc (F & S). split.
    - rewrite Forall_forall in *. intros x H. apply in_map_iff in H. destruct H as (b & <- & H). apply F in H. exact H.
    - clear F. induction S as [|b jc S IH B]; cbn [map]; constructor; auto. rewrite Forall_forall in *. intros x H. apply in_map_iff in H. destruct H as (c & <- & H). apply B in H. exact H.
  Qed.

  Lemma total_dim_perm : forall a b, Permutation a b -> total_dim a = total_dim b.
  Proof.
    assert (C : forall x l, total_dim (x :: l) = j_dim x + total_dim l) by reflexivity.
    intros a b P. induction P; rewrite ?C; lia.
  Qed.
  Lemma flat_zero : forall bs n, flat_map (content (map (fun b : jblock K => (jb_cols b, jb_mat b)) (map zeroed bs))) (seq 0 n) = repeat z (list_sum (map (@jb_cols K) bs) * n).
  Proof.
    intros bs n. assert (C : forall c, content (map (fun b : jblock K => (jb_cols b, jb_mat b)) (map zeroed bs)) c = repeat z (list_sum (map (@jb_cols K) bs))).
    { intros c. induction bs as [|b bs IH]; cbn; auto. unfold content in IH. rewrite IH, repeat_app. f_equal. clear. generalize 0. induction (jb_cols b); intros s; cbn; auto. f_equal; auto. }
    rewrite (flat_map_ext_in _ _ _ (fun _ => repeat z (list_sum (map (@jb_cols K) bs))) (seq 0 n)) by (intros; apply C).
    generalize 0. induction n as [|n IH]; intros s; cbn [seq flat_map]; [rewrite Nat.mul_0_r; auto|]. rewrite IH, <- repeat_app. f_equal. lia.
  Qed.

  (* symbolic appending adds columns of zeros *)
  Lemma append_symbolic : forall jrows dvs jc (m : ccm K), wf m -> jacobian_ok (c_rows m) jrows jc -> Permutation (filter j_active dvs) (map jb_dv jc) ->
    c_diag m = false -> (c_acc m = true \/ jc <> []) ->
    appendSymbolic z jrows dvs m = Ok (add_cols m (map (jac_col (map zeroed jc)) (seq 0 jrows)), mkJcp (length (c_vals m)) (total_dim (map jb_dv jc)) (length jc)).
  Proof.
    intros jrows dvs jc m W J P D A. unfold appendSymbolic. rewrite D.
    assert (La : length (filter j_active dvs) = length jc) by (rewrite (Permutation_length P), map_length; auto). rewrite La.
    replace (negb (c_acc m) && (length jc =? 0)) with false.
    2: { destruct A as [->|A]; auto. destruct jc; [tauto|]. cbn. rewrite andb_false_r. auto. }
    pose proof (total_dim_perm _ _ P) as Td. rewrite Td. set (epc := total_dim (map jb_dv jc)).
    rewrite (sort_unique _ (map jb_dv jc) P).
    2: { destruct J as (_ & S). clear -S. induction S as [|b jc S IH B]; cbn [map]; constructor; auto. rewrite Forall_forall in *. intros x H. apply in_map_iff in H. destruct H as (c & <- & H).
         apply B in H. apply H. }
    cbv zeta. pose proof (wf_cp_len _ W) as Lc. destruct (c_cp m) as [|x l] eqn:Ec; [cbn in Lc; lia|]. rewrite <- Ec. clear Lc.
    set (R := flat_map (content (map (fun d => (j_dim d, fun _ r => j_base d + r)) (map jb_dv jc))) (seq 0 jrows)).
    assert (We : width (map (fun d => (j_dim d, fun _ r : nat => j_base d + r)) (map jb_dv jc)) = epc) by (unfold width, epc, total_dim; rewrite !map_map; auto).
    destruct (bw_fill (map (fun d => (j_dim d, fun _ r => j_base d + r)) (map jb_dv jc)) jrows (length (c_ri m))) as (B1 & B2 & B3). rewrite We in *. fold R in B1, B2.
    rewrite row_writes_bw. rewrite (puts_final _ (c_ri m ++ R)).
    - cbn [bind]. pose proof (zeroed_ok _ _ _ J) as Jz.
      set (cols := map (jac_col (map zeroed jc)) (seq 0 jrows)). destruct (add_cols_shape cols m) as (S1 & S2 & S3 & S4 & S5 & S6).
      assert (Lz : length cols = jrows) by (unfold cols; rewrite map_length, seq_length; auto).
      assert (E : mkCcm (c_rows m) (c_cols m + jrows) (c_vals m ++ repeat z (epc * jrows)) (c_ri m ++ R) (c_cp m ++ map (fun i => last (c_cp m) 0 + i * epc) (seq 1 jrows)) false (c_acc m) = add_cols m cols).
      { assert (Ev : flat_map (map snd) cols = repeat z (epc * jrows)).
        { unfold cols. rewrite flat_map_mapped. rewrite (flat_map_ext_in _ _ _ (content (map (fun b => (jb_cols b, jb_mat b)) (map zeroed jc)))) by (intros; apply (jac_col_snd _ _ _ _ Jz)).
          rewrite flat_zero. f_equal. f_equal. unfold epc, total_dim. rewrite map_map. f_equal. apply map_ext_in. intros b I. destruct J as (F & _). rewrite Forall_forall in F. apply F in I. apply I. }
        assert (Ei : flat_map (map fst) cols = R).
        { unfold cols, R. rewrite flat_map_mapped. apply flat_map_ext_in. intros c _. rewrite jac_col_fst, zeroed_dvs. auto. }
        pose proof (add_cols_cp epc cols m) as Cp. rewrite Lz in Cp. rewrite <- (wf_cp_last _ W) in Cp.
        rewrite <- Cp.
        - destruct (add_cols m cols) as [r1 c1 v1 i1 p1 d1 a1]. cbn in S1, S2, S3, S4, S5, S6 |- *. rewrite S1, S2, S3, S4, S5, S6, Ev, Ei, Lz, D. auto.
        - pose proof (forall_len (map zeroed jc) jrows) as Fl. rewrite zeroed_dvs in Fl. exact Fl. }
      rewrite E. unfold checked. rewrite wf_consistent.
      + cbn [bind]. rewrite (wf_ri_len _ W). auto.
      + apply add_cols_wf; auto. apply Forall_forall. intros c H. apply in_map_iff in H. destruct H as (i & <- & _). apply (jac_col_ok _ jrows); auto.
    - rewrite !app_length, repeat_length, B1. auto.
    - intros i v H. apply B2 in H. destruct H as (H1 & H2). rewrite nth_error_app2 by lia. auto.
    - intros i. destruct (Nat.lt_ge_cases i (length (c_ri m))) as [L|L].
      + right. rewrite !nth_error_app1 by auto. auto.
      + destruct (Nat.lt_ge_cases i (length (c_ri m) + epc * jrows)) as [L2|L2]; [left; apply B3; lia|right].
        rewrite (proj2 (nth_error_None _ _)) by (rewrite app_length, repeat_length; lia). symmetry. apply nth_error_None. rewrite app_length, B1. lia.
  Qed.

  (* the writes of a Jacobian fill its segment of the value array *)
  Lemma value_fill : forall rows jrows jc s n, jacobian_ok rows jrows jc -> let epc := total_dim (map jb_dv jc) in let V := flat_map (fun c => map snd (jac_col jc c)) (seq 0 jrows) in
    length V = epc * jrows /\
    (forall i v, In (i, v) (value_writes (mkJcp s epc n) 0 jc) -> s <= i < s + epc * jrows /\ nth_error V (i - s) = Some v) /\
    (forall i, s <= i < s + epc * jrows -> exists v, In (i, v) (value_writes (mkJcp s epc n) 0 jc)).
  Proof.
    intros rows jrows jc s n J. cbv zeta. pose proof J as (F & _).
    rewrite (value_writes_bw _ _ jrows) by (eapply Forall_impl; [|exact F]; intros b H; apply H).
    destruct (bw_fill (map (fun b => (jb_cols b, jb_mat b)) jc) jrows s) as (B1 & B2 & B3).
    assert (We : width (map (fun b => (jb_cols b, jb_mat b)) jc) = total_dim (map jb_dv jc)).
    { unfold width, total_dim. rewrite !map_map. f_equal. apply map_ext_in. intros b I. rewrite Forall_forall in F. apply F in I. apply I. }
    rewrite We in *. cbn [p_start p_epc].
    rewrite (flat_map_ext_in _ _ (fun c => map snd (jac_col jc c)) (content (map (fun b => (jb_cols b, jb_mat b)) jc))) by (intros; apply (jac_col_snd _ _ _ _ J)). auto.
  Qed.

  Lemma append_ok : forall jrows jc (m : ccm K), wf m -> jacobian_ok (c_rows m) jrows jc ->
    appendJacobians z jrows jc m = if c_diag m then Throw else if negb (c_acc m) && (length jc =? 0) then Throw else Ok (add_cols m (map (jac_col jc) (seq 0 jrows))).
  Proof.
    intros jrows jc m W J. unfold appendJacobians. destruct (c_diag m) eqn:D; [unfold appendSymbolic; rewrite D; auto|].
    assert (Fa : filter j_active (map jb_dv jc) = map jb_dv jc).
    { destruct J as (F & _). clear -F. induction F as [|b jc H F IH]; cbn [map filter]; auto. destruct H as (H & _). rewrite H. f_equal. auto. }
    destruct (negb (c_acc m) && (length jc =? 0)) eqn:E.
    - unfold appendSymbolic. rewrite D, Fa, map_length, E. auto.
    - rewrite (append_symbolic jrows (map jb_dv jc) jc m W J); auto.
      2: { rewrite Fa. apply Permutation_refl. }
      2: { destruct (c_acc m); auto. right. intros ->. discriminate. }
      cbn [bind fst snd]. unfold writeJacobians. cbn [p_active]. rewrite Nat.eqb_refl. cbn [negb].
      destruct (value_fill (c_rows m) jrows jc (length (c_vals m)) (length jc) J) as (B1 & B2 & B3). set (epc := total_dim (map jb_dv jc)) in *.
      set (zc := map (jac_col (map zeroed jc)) (seq 0 jrows)). set (nc := map (jac_col jc) (seq 0 jrows)).
      destruct (add_cols_shape zc m) as (S1 & S2 & S3 & S4 & S5 & S6). destruct (add_cols_shape nc m) as (T1 & T2 & T3 & T4 & T5 & T6).
      assert (Ev : flat_map (map snd) nc = flat_map (fun c => map snd (jac_col jc c)) (seq 0 jrows)) by (unfold nc; apply flat_map_mapped).
      assert (Lz : length (flat_map (map snd) zc) = epc * jrows).
      { unfold zc. rewrite flat_map_mapped. destruct (value_fill (c_rows m) jrows (map zeroed jc) 0 0 (zeroed_ok _ _ _ J)) as (Z1 & _). rewrite zeroed_dvs in Z1. exact Z1. }
      rewrite (puts_final _ (c_vals m ++ flat_map (map snd) nc)).
      + cbn [bind]. f_equal.
        assert (Ei : flat_map (map fst) zc = flat_map (map fst) nc).
        { unfold zc, nc. rewrite !flat_map_mapped. apply flat_map_ext_in. intros c _. rewrite !jac_col_fst, zeroed_dvs. auto. }
        assert (Ep : c_cp (add_cols m zc) = c_cp (add_cols m nc)).
        { rewrite (add_cols_cp epc zc), (add_cols_cp epc nc).
          - unfold zc, nc. rewrite !map_length. auto.
          - apply forall_len.
          - pose proof (forall_len (map zeroed jc) jrows) as Fl. rewrite zeroed_dvs in Fl. exact Fl. }
        rewrite S1, S2, S3, S4, S6, Ei, Ep. rewrite <- T6, <- T5. replace (length zc) with (length nc) by (unfold zc, nc; rewrite !map_length; auto).
        rewrite <- T1, <- T2, <- T3, <- T4. destruct (add_cols m nc); auto.
      + rewrite S5, Ev, !app_length, Lz, B1. auto.
      + intros i v H. apply B2 in H. destruct H as (H1 & H2). rewrite nth_error_app2 by lia. rewrite Ev. auto.
      + intros i. rewrite S5. destruct (Nat.lt_ge_cases i (length (c_vals m))) as [L|L].
        * right. rewrite !nth_error_app1 by auto. auto.
        * destruct (Nat.lt_ge_cases i (length (c_vals m) + epc * jrows)) as [L2|L2]; [left; apply B3; lia|right].
          rewrite (proj2 (nth_error_None _ _)) by (rewrite app_length, Lz; lia). symmetry. apply nth_error_None. rewrite app_length, Ev, B1. lia.
  Qed.

  (** ** histories *)
  Definition rep (m : ccm K) (a : dense K) : Prop :=
    c_rows m = d_rows a /\ c_cols m = d_cols a /\ c_diag m = d_diag a /\ c_acc m = d_acc a /\ wf m /\ means m (d_mat a) /\
    (d_diag a = true -> exists m0 d, wf m0 /\ means m0 (d_mat a) /\ c_diag m0 = false /\ length d = c_rows m0 /\ m = pushed d m0).

  Lemma rep_push : forall d m0 a a', wf m0 -> means m0 (d_mat a) -> c_diag m0 = false -> length d = c_rows m0 ->
    a' = with_diagonal z (fun i => nth i d z) (c_cols m0) a -> c_rows m0 = d_rows a -> c_acc m0 = d_acc a -> rep (pushed d m0) a'.
  Proof.
    intros d m0 a a' W Me D L -> Er Ea. destruct (pushed_ok z d m0 (d_mat a) W Me L) as (W2 & M2).
    assert (M3 : means m0 (d_mat (with_diagonal z (fun i => nth i d z) (c_cols m0) a))).
    { eapply means_ext; [|exact Me]. intros r c Hr Hc. cbn [with_diagonal d_mat]. rewrite (proj2 (Nat.ltb_lt _ _) Hc). auto. }
    unfold rep. cbn [pushed c_rows c_cols c_diag c_acc with_diagonal d_rows d_cols d_diag d_acc]. rewrite Er. repeat (split; auto).
    intros _. exists m0, d. auto.
  Qed.
  Lemma with_diagonal_ext : forall d1 d2 n a, (forall i, i < d_rows a -> d1 i = d2 i) -> forall r c, r < d_rows a ->
    d_mat (with_diagonal z d1 n a) r c = d_mat (with_diagonal z d2 n a) r c.
  Proof. intros d1 d2 n a E r c Hr. cbn [with_diagonal d_mat]. destruct (c <? n); auto. destruct (r =? c - n); auto. Qed.
  Lemma rep_ext : forall m a b, rep m a -> d_rows b = d_rows a -> d_cols b = d_cols a -> d_diag b = d_diag a -> d_acc b = d_acc a ->
    (forall r c, r < d_rows a -> c < d_cols a -> d_mat a r c = d_mat b r c) -> rep m b.
  Proof.
    intros m a b (A1 & A2 & A3 & A4 & A5 & A6 & A7) E1 E2 E3 E4 E. unfold rep. rewrite E1, E2, E3, E4. repeat (split; auto).
    - eapply means_ext; [|exact A6]. intros r c Hr Hc. apply E; congruence.
    - intros X. destruct (A7 X) as (m0 & d & B1 & B2 & B3 & B4 & B5). exists m0, d. split; auto. split; auto.
      eapply means_ext; [|exact B2]. intros r c Hr Hc. subst m. cbn in A1, A2. apply E; lia.
  Qed.
  Lemma nth_repeat_lt : forall (x : K) n i, i < n -> nth i (repeat x n) z = x.
  Proof. induction n; intros [|i] H; cbn; auto; try lia. apply IHn. lia. Qed.

  Lemma rep_new : forall rows cols, rep (construct rows cols) (mkDense rows cols (fun _ _ => z) false false).
  Proof.
    intros. destruct (empty_ok z rows cols (mkCcm 0 0 [] [] [] false false) eq_refl eq_refl) as (W & Me).
    unfold rep. cbn [construct init c_rows c_cols c_diag c_acc d_rows d_cols d_diag d_acc d_mat]. repeat (split; auto). discriminate.
  Qed.

  Lemma csc_means : forall rows cols p i x b b', well_formed (mkCcm rows cols x i p b b') -> means (mkCcm rows cols x i p b b') (csc_entry z p i x).
  Proof.
    intros rows cols p i x b b' W r c Hr Hc. cbn [c_rows c_cols c_vals] in *. unfold csc_entry, colptr, rowind. cbn [c_cp c_ri]. destruct (List.find _ _) as [k|] eqn:E.
    - left. apply List.find_some in E. destruct E as (E1 & E2). apply in_seq in E1. apply Nat.eqb_eq in E2. exists k. split; [lia|]. split; auto. apply nth_error_nth'. pose proof (wf_last _ W) as L. unfold colptr in L. cbn [c_cp c_cols c_vals] in L.
      assert (Mo : forall d, c + 1 + d <= cols -> nth (c + 1) p 0 <= nth (c + 1 + d) p 0). { induction d as [|d IH]; intros Hd; [rewrite Nat.add_0_r; auto|]. pose proof (wf_mono _ W (c + 1 + d)) as Q. unfold colptr in Q. cbn [c_cp c_cols] in Q. specialize (IH ltac:(lia)). specialize (Q ltac:(lia)). replace (c + 1 + S d) with (c + 1 + d + 1) by lia. lia. }
      specialize (Mo (cols - (c + 1)) ltac:(lia)). replace (c + 1 + (cols - (c + 1))) with cols in Mo by lia. lia.
    - right. split; auto. intros k Hk Hr2. assert (F : (nth k i 0 =? r) = false) by (apply (List.find_none _ _ E k); apply in_seq; lia). rewrite Hr2, Nat.eqb_refl in F. discriminate.
  Qed.
  Lemma step_ok : forall o m a, rep m a -> allowed o m a ->
    match meaning z o a with Some a1 => exists m1, exec z o m = Ok m1 /\ rep m1 a1 | None => exec z o m = Throw end.
  Proof.
    intros o m a Rp Al. pose proof Rp as (A1 & A2 & A3 & A4 & A5 & A6 & A7).
    destruct o as [rows cols|rows cols| |b|keep rows cols M|jrows jc|d|x| |d|x|rows cols p i x]; cbn [meaning exec]; cbn [allowed] in Al.
    - eexists. split; [reflexivity|]. destruct (empty_ok z rows cols m Al) as (W & Me).
      { pose proof (wf_ri_len _ A5) as L. rewrite Al in L. destruct (c_ri m); [auto|discriminate]. }
      unfold rep. cbn [init c_rows c_cols c_diag c_acc d_rows d_cols d_diag d_acc d_mat]. repeat (split; auto). discriminate.
    - eexists. split; [reflexivity|]. destruct (empty_ok z rows cols (clear m) eq_refl eq_refl) as (W & Me).
      unfold rep. cbn [init clear c_rows c_cols c_diag c_acc d_rows d_cols d_diag d_acc d_mat]. repeat (split; auto). discriminate.
    - destruct Al.
    - eexists. split; [reflexivity|]. assert (Wb : wf (setAccept b m)) by (destruct A5; constructor; auto).
      unfold rep. split; [exact A1|]. split; [exact A2|]. split; [exact A3|]. split; [reflexivity|]. split; [exact Wb|]. split; [exact A6|].
      + intros X. destruct (A7 X) as (m0 & d & B1 & B2 & B3 & B4 & B5). exists (setAccept b m0), d. split; [destruct B1; constructor; auto|]. split; auto. split; auto. split; auto.
        subst m. reflexivity.
    - destruct (fromDense_ok z keep M rows cols m) as (m1 & E & W & Me & R1 & R2 & R3 & R4). exists m1. split; auto.
      unfold rep. cbn [d_rows d_cols d_diag d_acc d_mat]. rewrite R1, R2, R3, R4, A3, A4, Al. repeat (split; auto). discriminate.
    - rewrite <- A1 in Al. rewrite (append_ok jrows jc m A5 Al), A3, A4. destruct (d_diag a) eqn:D; auto. destruct (negb (d_acc a) && (length jc =? 0)); auto.
      eexists. split; [reflexivity|]. set (nc := map (jac_col jc) (seq 0 jrows)). destruct (add_cols_shape nc m) as (S1 & S2 & S3 & S4 & _).
      destruct (add_cols_ok z nc m (d_mat a) A5) as (W2 & M2); auto.
      { apply Forall_forall. intros c H. apply in_map_iff in H. destruct H as (i & <- & _). apply (jac_col_ok _ jrows); auto. }
      assert (Ln : length nc = jrows) by (unfold nc; rewrite map_length, seq_length; auto).
      unfold rep. cbn [d_rows d_cols d_diag d_acc d_mat]. rewrite S1, S2, S3, S4, Ln, A1, A2, A3, A4, ?D. repeat (split; auto); [|discriminate].
      eapply means_ext; [|exact M2]. intros r c Hr Hc. rewrite S2, Ln in Hc. rewrite <- A2. destruct (Nat.ltb_spec c (c_cols m)) as [G|G]; auto.
      unfold nc. rewrite (nth_indep _ [] (jac_col jc 0)) by (rewrite map_length, seq_length; lia). rewrite map_nth, seq_nth by lia. apply (jac_lookup _ _ _ _ _ Al).
    - rewrite (push_code z) by auto. rewrite A1, A3. destruct (d_diag a) eqn:D; [destruct (length d =? d_rows a); auto|]. destruct (Nat.eqb_spec (length d) (d_rows a)) as [L|L]; auto.
      eexists. split; [reflexivity|]. eapply rep_push with (a := a); eauto; congruence.
    - unfold pushConstant. rewrite (push_code z) by auto. rewrite repeat_length, Nat.eqb_refl, A3. destruct (d_diag a) eqn:D; auto.
      eexists. split; [reflexivity|]. eapply rep_ext.
      + eapply rep_push with (a := a); eauto; [apply repeat_length].
      + reflexivity.
      + cbn. congruence.
      + reflexivity.
      + reflexivity.
      + intros r c Hr Hc. rewrite A2. apply with_diagonal_ext; auto. intros i Hi. apply nth_repeat_lt. congruence.
    - unfold exec. destruct (d_diag a) eqn:D.
      + destruct (A7 eq_refl) as (m0 & d & B1 & B2 & B3 & B4 & B5). subst m. rewrite pop_pushed by auto. eexists. split; [reflexivity|].
        cbn in A1, A2, A4. unfold rep. cbn [d_rows d_cols d_diag d_acc d_mat]. repeat (split; auto); [lia|discriminate].
      + unfold popDiagonal. rewrite A3. auto.
    - destruct (d_diag a) eqn:D.
      + destruct (A7 eq_refl) as (m0 & d0 & B1 & B2 & B3 & B4 & B5). subst m. cbn in A1, A2, A4. specialize (Al eq_refl). rewrite update_pushed by congruence.
        eexists. split; [reflexivity|]. eapply rep_push with (a := a); eauto; [congruence|]. f_equal. lia.
      + unfold updateDiagonal. rewrite A3. auto.
    - destruct (d_diag a) eqn:D.
      + destruct (A7 eq_refl) as (m0 & d0 & B1 & B2 & B3 & B4 & B5). subst m. cbn in A1, A2, A4. unfold updateConstant. cbn [pushed c_rows]. rewrite update_pushed by (rewrite ?repeat_length; congruence).
        eexists. split; [reflexivity|]. eapply rep_ext.
        * eapply rep_push with (a := a); eauto; [apply repeat_length].
        * reflexivity.
        * cbn. lia.
        * reflexivity.
        * reflexivity.
        * intros r c Hr Hc. replace (d_cols a - d_rows a) with (c_cols m0) by lia. apply with_diagonal_ext; auto. intros i Hi. apply nth_repeat_lt. congruence.
      + unfold updateConstant, updateDiagonal. rewrite A3. auto.
    - destruct Al as (D & W0). assert (W : wf (mkCcm rows cols x i p (c_diag m) (c_acc m))) by (destruct W0; constructor; auto).
      exists (mkCcm rows cols x i p (c_diag m) (c_acc m)). unfold fromCholmod, checked. rewrite (wf_consistent _ W). split; auto.
      unfold rep. cbn [c_rows c_cols c_diag c_acc d_rows d_cols d_diag d_acc d_mat]. split; auto. split; auto. split; [congruence|]. split; auto. split; auto. split; [apply csc_means; auto|]. discriminate.
  Qed.

  Lemma reached_rep : forall m a, reached z m a -> rep m a.
  Proof.
    intros m a H. induction H as [rows cols|o m a m1 a1 H IH Al E M]; [apply rep_new|].
    pose proof (step_ok o m a IH Al) as S. rewrite M in S. destruct S as (m2 & E2 & R2). congruence.
  Qed.
End CCMP2.
