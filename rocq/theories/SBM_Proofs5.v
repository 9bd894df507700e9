(** * SparseBlockMatrix: compressed columns *)
From Coq Require Import Arith Lia List Bool Sorting.Sorted.
From Verif Require Import Lib_Ring Lib_Res CCM_Model CCM_Proofs SBM_Model SBM_Spec SBM_Proofs SBM_Proofs2 SBM_Proofs3.
From Verif Require CCM_Spec.
Import ListNotations.

Section Ops5.
  Context {K : Type} {R : CRing K}.
  Add Ring Kring5 : (@kring K R).
  Notation sbm := (sbm K). Notation bmap := (bmap K).
  Notation lt_fst := (fun a b : nat * K => fst a < fst b).

  Lemma pieces_ok : forall A B (f : A -> res (list B)) (g : A -> list B) l, (forall x, In x l -> f x = Ok (g x)) -> pieces f l = Ok (flat_map g l).
  Proof. intros A B f g. induction l as [|x l IH]; intros H; cbn [pieces flat_map]; auto. rewrite H by (left; auto). cbn [bind]. rewrite IH by (intros; apply H; right; auto). auto. Qed.
  Lemma fill_cols : forall (f : nat * nat -> res (list (nat * K))) g l cp ci cx M, (forall x, In x l -> f x = Ok (g x)) ->
    c_cp M = cp ++ [length cx] -> c_ri M = ci -> c_vals M = cx ->
    fill f l cp ci cx = Ok (c_cp (add_cols M (map g l)), c_ri (add_cols M (map g l)), c_vals (add_cols M (map g l))).
  Proof.
    intros f g. induction l as [|x l IH]; intros cp ci cx M H E1 E2 E3; cbn [fill map add_cols fold_left].
    - rewrite E1, E2, E3. auto.
    - rewrite H by (left; auto). cbn [bind]. rewrite (IH _ _ _ (add_col M (g x))); auto.
      + intros; apply H; right; auto.
      + cbn [add_col c_cp]. rewrite E1, E3, app_length, map_length. auto.
      + cbn [add_col c_ri]. rewrite E2. auto.
      + cbn [add_col c_vals]. rewrite E3. auto.
  Qed.
  Lemma fill_values_ok : forall (f : nat * nat -> res (list (nat * K))) l cp ci cx, fill_values f l cx = (do x <- fill f l cp ci cx; Ok (snd x)).
  Proof. intros f. induction l as [|x l IH]; intros cp ci cx; cbn [fill_values fill]; auto. destruct (f x); cbn [bind]; auto. Qed.

  Lemma cells : forall l n, layout_ok l -> n <= length l -> let s := flat_map (fun i => map (fun c => (i, c)) (seq 0 (bsize l i))) (seq 0 n) in
    length s = base l n /\ (forall b j, b < n -> j < bsize l b -> nth (base l b + j) s (0, 0) = (b, j)) /\ (forall b j, In (b, j) s <-> b < n /\ j < bsize l b).
  Proof.
    intros l n Lo. induction n as [|n IH]; intros Hn; cbv zeta.
    - cbn. split; auto. split; [intros; lia|]. intros. split; [intros []|lia].
    - rewrite seq_S, flat_map_app. cbn [plus flat_map]. rewrite app_nil_r. destruct IH as (I1 & I2 & I3); [lia|]. set (s := flat_map _ (seq 0 n)) in *. split; [|split].
      + rewrite app_length, I1, map_length, seq_length, base_S by (auto; lia). auto.
      + intros b j Hb Hj. destruct (Nat.eq_dec b n) as [->|N].
        * rewrite app_nth2 by lia. replace (base l n + j - length s) with j by lia. rewrite (nth_indep _ (0, 0) ((fun c => (n, c)) 0)) by (rewrite map_length, seq_length; auto).
          rewrite (map_nth (fun c => (n, c))), seq_nth; auto.
        * rewrite app_nth1; [apply I2; auto; lia|]. rewrite I1. pose proof (base_mono l (S b) n Lo ltac:(lia) ltac:(lia)) as M. rewrite base_S in M by (auto; lia). lia.
      + intros b j. rewrite in_app_iff, I3, in_map_iff. split.
        * intros [H|(c & E & H)]; [lia|]. injection E as <- <-. apply in_seq in H. lia.
        * intros (H1 & H2). destruct (Nat.eq_dec b n) as [->|N]; [right|left; lia]. exists j. split; auto. apply in_seq. lia.
  Qed.

  Lemma fill_ccs : forall (m : sbm) f g rows A, well_formed m ->
    (forall bc j, bc < length (s_cbi m) -> j < bsize (s_cbi m) bc ->
       f (bc, j) = Ok (g (bc, j)) /\ StronglySorted lt_fst (g (bc, j)) /\
       (forall p v, In (p, v) (g (bc, j)) -> p < rows /\ v = A p (base (s_cbi m) bc + j)) /\
       (forall p, p < rows -> A p (base (s_cbi m) bc + j) = k0 \/ exists v, In (p, v) (g (bc, j)))) ->
    exists x, fill f (scalar_cols m) [] [] [] = Ok x /\ is_ccs rows (total (s_cbi m)) A x.
  Proof.
    intros m f g rows A W H. set (e := mkCcm rows 0 ([] : list K) [] [0] false false).
    pose proof (cells (s_cbi m) (length (s_cbi m)) (wf_cols _ W) (le_n _)) as (C1 & C2 & C3). cbv zeta in C1, C2, C3. rewrite <- total_base in C1. unfold scalar_cols. rewrite (wf_len _ W).
    set (cs := flat_map _ _) in *. rewrite (fill_cols f g cs [] [] [] e); auto.
    2: { intros [b j] Hx. apply C3 in Hx. apply H; apply Hx. }
    eexists. split; [reflexivity|]. unfold is_ccs. cbn [fst snd]. set (news := map g cs). destruct (add_cols_shape news e) as (S1 & S2 & S3 & S4 & _ & _).
    assert (Ln : length news = total (s_cbi m)) by (unfold news; rewrite map_length; auto).
    assert (E : mkCcm rows (total (s_cbi m)) (c_vals (add_cols e news)) (c_ri (add_cols e news)) (c_cp (add_cols e news)) false false = add_cols e news).
    { destruct (add_cols e news) as [r1 c1 v1 i1 p1 d1 a1]. cbn in S1, S2, S3, S4 |- *. rewrite S1, S2, S3, S4, Ln. reflexivity. }
    rewrite E. assert (We : CCM_Spec.well_formed e /\ CCM_Spec.stands_for k0 e (fun _ _ => k0)).
    { destruct (empty_ok k0 rows 0 (mkCcm 0 0 [] [] [] false false) eq_refl eq_refl) as (W0 & Me). split.
      - destruct W0. constructor; auto.
      - intros r c Hr Hc. cbn in Hc. lia. }
    destruct (add_cols_ok k0 news e (fun _ _ => k0) (proj1 We)) as (Wn & Me); [|apply We|].
    { apply Forall_forall. intros x Hx. apply in_map_iff in Hx. destruct Hx as ([b j] & <- & Hx). apply C3 in Hx. destruct (H b j) as (_ & Q1 & Q2 & _); try apply Hx. split; auto.
      apply Forall_forall. intros [p v] Hp. apply Q2 in Hp. apply Hp. }
    split; auto. eapply means_ext; [|exact Me]. intros r c Hr Hc. rewrite S1 in Hr. rewrite S2, Ln in Hc. cbn in Hr, Hc. cbn [e c_cols]. replace (c <? 0) with false by reflexivity. rewrite Nat.sub_0_r.
    rewrite total_base in Hc. destruct (tile_exists _ _ _ (wf_cols _ W) (le_n _) Hc) as (b & j & B1 & B2 & ->). unfold news.
    rewrite (nth_indep _ [] (g (0, 0))) by (rewrite map_length, C1, total_base; auto). rewrite map_nth, C2 by auto. destruct (H b j B1 B2) as (_ & Q1 & Q2 & Q3).
    destruct (lookup_spec k0 (g (b, j)) r Q1) as [(p & P1 & P2 & P3)|(P1 & P2)].
    - rewrite <- P3. apply Q2. rewrite <- P2. rewrite <- surjective_pairing. apply nth_In. auto.
    - rewrite P2. destruct (Q3 r Hr) as [Q|(v & Hv)]; auto. exfalso. destruct (In_nth _ _ (0, k0) Hv) as (p & L & Ep). apply (P1 p L). rewrite Ep. auto.
  Qed.

  (** sorted lists *)
  Lemma ss_app : forall (a b : list (nat * K)), StronglySorted lt_fst a -> StronglySorted lt_fst b -> (forall x y, In x a -> In y b -> fst x < fst y) -> StronglySorted lt_fst (a ++ b).
  Proof.
    induction a as [|x a IH]; intros b Sa Sb H; cbn [app]; auto. apply StronglySorted_inv in Sa. destruct Sa as [Sa F]. constructor.
    - apply IH; auto. intros u v Hu Hv. apply H; auto. right; auto.
    - apply Forall_forall. intros y Hy. apply in_app_iff in Hy. destruct Hy as [Hy|Hy]; [rewrite Forall_forall in F; auto|apply H; auto; left; auto].
  Qed.
  Lemma ss_flat : forall (X : Type) l (key : X -> nat) (g : X -> list (nat * K)) L, layout_ok l -> StronglySorted lt (map key L) ->
    (forall x, In x L -> key x < length l /\ StronglySorted lt_fst (g x) /\ forall e, In e (g x) -> base l (key x) <= fst e < base l (key x) + bsize l (key x)) ->
    StronglySorted lt_fst (flat_map g L).
  Proof.
    intros X l key g. induction L as [|x L IH]; intros Lo S H; cbn [flat_map map] in *; [constructor|]. apply StronglySorted_inv in S. destruct S as [S F]. destruct (H x) as (H1 & H2 & H3); [left; auto|].
    apply ss_app; auto.
    - apply IH; auto. intros; apply H; right; auto.
    - intros u v Hu Hv. apply in_flat_map in Hv. destruct Hv as (y & Hy & Hv). destruct (H y) as (J1 & J2 & J3); [right; auto|]. specialize (H3 u Hu). specialize (J3 v Hv).
      rewrite Forall_forall in F. assert (key x < key y) by (apply F; apply in_map; auto). pose proof (base_mono l (Datatypes.S (key x)) (key y) Lo ltac:(lia) ltac:(lia)) as M. rewrite base_S in M by auto. lia.
  Qed.
  Lemma ss_seg : forall (h : nat -> K) off n a, StronglySorted lt_fst (map (fun r => (off + r, h r)) (seq a n)).
  Proof.
    intros h off. induction n as [|n IH]; intros a; cbn [seq map]; constructor; auto. apply Forall_forall. intros y Hy. apply in_map_iff in Hy. destruct Hy as (r & <- & Hr). apply in_seq in Hr. cbn [fst]. lia.
  Qed.

  (** the part of a column taken from the stored blocks *)
  Definition down (m : sbm) (cnt : nat -> nat) (i c : nat) : list (nat * K) :=
    flat_map (fun e : nat * mat K => map (fun r => (base (s_rbi m) (fst e) + r, snd e r c)) (seq 0 (cnt (fst e)))) (nth i (s_cols m) []).
  Lemma in_down : forall (m : sbm) cnt i c p v, well_formed m -> i < length (s_cbi m) ->
    (In (p, v) (down m cnt i c) <-> exists r a B, get m r i = Some B /\ a < cnt r /\ p = base (s_rbi m) r + a /\ v = B a c).
  Proof.
    intros m cnt i c p v W Hi. unfold down. rewrite in_flat_map. split.
    - intros ([r B] & H1 & H2). apply in_map_iff in H2. destruct H2 as (a & E & H2). cbn [fst snd] in *. injection E as <- <-. apply in_seq in H2. exists r, a, B. split; [|split; [lia|auto]].
      apply entry_get; auto. apply in_entries. split; auto. rewrite (wf_len _ W). auto.
    - intros (r & a & B & H1 & H2 & -> & ->). apply entry_get in H1; auto. apply in_entries in H1. exists (r, B). split; [apply H1|]. apply in_map_iff. exists a. split; auto. apply in_seq. cbn [fst]. lia.
  Qed.
  Lemma ss_down : forall (m : sbm) cnt i c, well_formed m -> (forall r B, In (r, B) (nth i (s_cols m) []) -> cnt r <= bsize (s_rbi m) r) -> StronglySorted lt_fst (down m cnt i c).
  Proof.
    intros m cnt i c W H. apply (ss_flat _ (s_rbi m) fst); [apply W|apply (wf_keys _ W)|]. intros [r B] Hx. cbn [fst]. split; [eapply (wf_range _ W); eauto|]. split; [apply (ss_seg (fun a => B a c))|].
    intros e He. apply in_map_iff in He. destruct He as (a & <- & He). apply in_seq in He. cbn [fst]. specialize (H r B Hx). lia.
  Qed.
  Lemma column_false : forall (m : sbm) i c, ccs_column m false (i, c) = Ok (down m (bsize (s_rbi m)) i c).
  Proof. intros m i c. unfold ccs_column. cbn [fst snd]. rewrite (pieces_ok _ _ _ (fun e : nat * mat K => map (fun r => (base (s_rbi m) (fst e) + r, snd e r c)) (seq 0 (bsize (s_rbi m) (fst e))))); auto.
    intros x _. unfold ccs_piece. cbn [andb]. rewrite Nat.leb_refl. auto. Qed.

  Lemma row_in : forall l r a, layout_ok l -> r < length l -> a < bsize l r -> base l r + a < total l.
  Proof. intros l r a Lo Hr Ha. rewrite total_base. pose proof (base_mono l (S r) (length l) Lo ltac:(lia) ltac:(lia)) as M. rewrite base_S in M by auto. lia. Qed.
  Lemma fill_full : forall (m : sbm) A, well_formed m -> stands_for m A -> exists x, fillCCS m false = Ok x /\ is_ccs (total (s_rbi m)) (total (s_cbi m)) A x.
  Proof.
    intros m A W S. apply (fill_ccs m _ (fun ic => down m (bsize (s_rbi m)) (fst ic) (snd ic))); auto. intros bc j B1 B2. cbn [fst snd]. split; [apply column_false|]. split; [apply ss_down; auto|]. split.
    - intros p v H. apply in_down in H; auto. destruct H as (r & a & B & H1 & H2 & -> & ->). pose proof (get_range _ _ _ _ W H1) as (G1 & _). split; [apply row_in; auto; apply W|].
      rewrite S by auto. unfold blk. rewrite H1. auto.
    - intros p Hp. rewrite total_base in Hp. destruct (tile_exists _ _ _ (wf_rows _ W) (le_n _) Hp) as (br & i & C1 & C2 & ->). rewrite S by auto. unfold blk. destruct (get m br bc) as [B|] eqn:E; auto.
      right. exists (B i j). apply in_down; auto. exists br, i, B. auto.
  Qed.

  (** upper triangle *)
  Lemma base_inj : forall l a b, layout_ok l -> positive l -> a < length l -> b < length l -> base l a = base l b -> a = b.
  Proof.
    intros l a b Lo P Ha Hb E. destruct (lt_eq_lt_dec a b) as [[L|L]|L]; auto.
    - pose proof (base_mono l (S a) b Lo ltac:(lia) ltac:(lia)) as M. rewrite base_S in M by auto. specialize (P a Ha). lia.
    - pose proof (base_mono l (S b) a Lo ltac:(lia) ltac:(lia)) as M. rewrite base_S in M by auto. specialize (P b Hb). lia.
  Qed.
  Lemma tile_lt : forall l a b i j, layout_ok l -> a < b -> b < length l -> i < bsize l a -> base l a + i < base l b + j.
  Proof. intros l a b i j Lo H Hb Hi. pose proof (base_mono l (S a) b Lo ltac:(lia) ltac:(lia)) as M. rewrite base_S in M by (auto; lia). lia. Qed.
  Definition cnt_up (m : sbm) (i c r : nat) : nat := if r =? i then c + 1 else bsize (s_rbi m) r.
  Lemma column_true : forall (m : sbm) i c, well_formed m -> s_cbi m = s_rbi m -> positive (s_rbi m) -> i < length (s_cbi m) -> c < bsize (s_cbi m) i -> ccs_column m true (i, c) = Ok (down m (cnt_up m i c) i c).
  Proof.
    intros m i c W Sq P Hi Hc. unfold ccs_column. cbn [fst snd]. rewrite (pieces_ok _ _ _ (fun e : nat * mat K => map (fun r => (base (s_rbi m) (fst e) + r, snd e r c)) (seq 0 (cnt_up m i c (fst e))))); auto.
    intros [r B] Hx. unfold ccs_piece, cnt_up. cbn [andb fst snd]. pose proof (wf_range _ W _ _ _ Hx) as Hr. rewrite Sq in *.
    destruct (Nat.eqb_spec r i) as [->|N].
    - rewrite Nat.eqb_refl. rewrite (proj2 (Nat.leb_le _ _)) by lia. auto.
    - destruct (Nat.eqb_spec (base (s_rbi m) r) (base (s_rbi m) i)) as [E|_]; [|rewrite Nat.leb_refl; auto]. exfalso. apply N. eapply base_inj; eauto. apply W.
  Qed.
  Lemma fill_triu : forall (m : sbm) A, well_formed m -> s_cbi m = s_rbi m -> positive (s_rbi m) -> upper_only m -> stands_for m A ->
    exists x, fillCCS m true = Ok x /\ is_ccs (total (s_rbi m)) (total (s_cbi m)) (triu A) x.
  Proof.
    intros m A W Sq P U S. apply (fill_ccs m _ (fun ic => down m (cnt_up m (fst ic) (snd ic)) (fst ic) (snd ic))); auto. intros bc j B1 B2. cbn [fst snd].
    split; [apply column_true; auto|]. pose proof (wf_rows _ W) as Lo. split; [apply ss_down; auto; intros r B _; unfold cnt_up; destruct (Nat.eqb_spec r bc) as [->|]; [rewrite Sq in B2; lia|auto]|]. split.
    - intros p v H. apply in_down in H; auto. destruct H as (r & a & B & H1 & H2 & -> & ->). pose proof (get_range _ _ _ _ W H1) as (G1 & _).
      assert (r <= bc) as Le by (apply U; congruence). unfold cnt_up in H2. assert (a < bsize (s_rbi m) r) by (rewrite Sq in B2; destruct (Nat.eqb_spec r bc) as [->|]; lia).
      split; [apply row_in; auto|]. unfold triu. rewrite (proj2 (Nat.leb_le _ _)); [rewrite S by auto; unfold blk; rewrite H1; auto|]. rewrite Sq in *.
      destruct (Nat.eqb_spec r bc) as [->|N]; [lia|]. apply Nat.lt_le_incl. apply tile_lt; auto. lia.
    - intros p Hp. rewrite total_base in Hp. destruct (tile_exists _ _ _ Lo (le_n _) Hp) as (br & i & C1 & C2 & ->). unfold triu.
      destruct (Nat.leb_spec (base (s_rbi m) br + i) (base (s_cbi m) bc + j)) as [Le|Le]; auto. rewrite S by auto. unfold blk. destruct (get m br bc) as [B|] eqn:E; auto.
      right. exists (B i j). apply in_down; auto. exists br, i, B. split; auto. split; auto. unfold cnt_up. destruct (Nat.eqb_spec br bc) as [->|]; auto. rewrite Sq in Le. lia.
  Qed.

  (** the full symmetric matrix from the upper blocks *)
  Definition across (m : sbm) (i c cb : nat) : list (nat * K) :=
    match get m i cb with Some b => let skip := if i =? cb then c + 1 else 0 in map (fun ci => (base (s_cbi m) cb + ci, b c ci)) (seq skip (bsize (s_cbi m) cb - skip)) | None => [] end.
  Lemma mirror_ok : forall (m : sbm) i c, well_formed m -> s_cbi m = s_rbi m -> positive (s_rbi m) -> i < length (s_cbi m) -> c < bsize (s_cbi m) i ->
    mirror_column m (i, c) = Ok (down m (cnt_up m i c) i c ++ flat_map (across m i c) (seq i (length (s_cbi m) - i))).
  Proof.
    intros m i c W Sq P Hi Hc. unfold mirror_column. rewrite column_true by auto. cbn [bind fst snd]. rewrite (pieces_ok _ _ _ (across m i c)); [rewrite (wf_len _ W); auto|].
    intros cb _. unfold mirror_piece, across. rewrite Sq in Hc. destruct (get m i cb); auto. rewrite (proj2 (Nat.ltb_lt _ _) Hc). auto.
  Qed.
  Lemma in_across : forall (m : sbm) i c p v n, In (p, v) (flat_map (across m i c) (seq i n)) <->
    exists cb ci B, i <= cb < i + n /\ get m i cb = Some B /\ (if i =? cb then c + 1 else 0) <= ci /\ ci < bsize (s_cbi m) cb /\ p = base (s_cbi m) cb + ci /\ v = B c ci.
  Proof.
    intros m i c p v n. rewrite in_flat_map. split.
    - intros (cb & H1 & H2). apply in_seq in H1. unfold across in H2. destruct (get m i cb) as [B|] eqn:E; [|destruct H2]. apply in_map_iff in H2. destruct H2 as (ci & X & H2). injection X as <- <-. apply in_seq in H2.
      exists cb, ci, B. split; auto. split; auto. split; [lia|]. split; [lia|]. auto.
    - intros (cb & ci & B & H1 & H2 & H3 & H4 & -> & ->). exists cb. split; [apply in_seq; auto|]. unfold across. rewrite H2. apply in_map_iff. exists ci. split; auto. apply in_seq. lia.
  Qed.
  Lemma fill_symm : forall (m : sbm) A, well_formed m -> s_cbi m = s_rbi m -> positive (s_rbi m) -> upper_only m -> stands_for m A ->
    exists x, fillUpper m = Ok x /\ is_ccs (total (s_rbi m)) (total (s_cbi m)) (symm A) x.
  Proof.
    intros m A W Sq P U S. apply (fill_ccs m _ (fun ic => down m (cnt_up m (fst ic) (snd ic)) (fst ic) (snd ic) ++ flat_map (across m (fst ic) (snd ic)) (seq (fst ic) (length (s_cbi m) - fst ic)))); auto.
    intros bc j B1 B2. cbn [fst snd]. split; [apply mirror_ok; auto|]. pose proof (wf_rows _ W) as Lo.
    assert (D : forall p v, In (p, v) (down m (cnt_up m bc j) bc j) -> p <= base (s_cbi m) bc + j /\ p < total (s_rbi m) /\ v = symm A p (base (s_cbi m) bc + j)).
    { intros p v H. apply in_down in H; auto. destruct H as (r & a & B & H1 & H2 & -> & ->). pose proof (get_range _ _ _ _ W H1) as (G1 & _).
      assert (r <= bc) as Le by (apply U; congruence). unfold cnt_up in H2. assert (a < bsize (s_rbi m) r) by (rewrite Sq in B2; destruct (Nat.eqb_spec r bc) as [->|]; lia).
      assert (base (s_rbi m) r + a <= base (s_cbi m) bc + j) as L2 by (rewrite Sq in *; destruct (Nat.eqb_spec r bc) as [->|N]; [lia|]; apply Nat.lt_le_incl; apply tile_lt; auto; lia).
      split; auto. split; [apply row_in; auto|]. unfold symm. rewrite (proj2 (Nat.leb_le _ _) L2). rewrite S by auto. unfold blk. rewrite H1. auto. }
    assert (X : forall p v, In (p, v) (flat_map (across m bc j) (seq bc (length (s_cbi m) - bc))) -> base (s_cbi m) bc + j < p /\ p < total (s_rbi m) /\ v = symm A p (base (s_cbi m) bc + j)).
    { intros p v H. apply in_across in H. destruct H as (cb & ci & B & H1 & H2 & H3 & H4 & -> & ->). assert (cb < length (s_cbi m)) by lia.
      assert (base (s_cbi m) bc + j < base (s_cbi m) cb + ci) as L2. { destruct (Nat.eqb_spec bc cb) as [->|]; [lia|]. apply tile_lt; auto; [apply W|lia]. }
      split; auto. split; [rewrite Sq in *; apply row_in; auto|]. unfold symm. rewrite (proj2 (Nat.leb_gt _ _) L2).
      assert (EA : A (base (s_cbi m) bc + j) (base (s_cbi m) cb + ci) = blk m bc cb j ci). { rewrite <- (S bc cb j ci); auto; rewrite Sq in *; auto. } rewrite EA. unfold blk. rewrite H2. auto. }
    split; [|split].
    - apply ss_app.
      + apply ss_down; auto; intros r B _; unfold cnt_up; destruct (Nat.eqb_spec r bc) as [->|]; [rewrite Sq in B2; lia|auto].
      + apply (ss_flat _ (s_cbi m) (fun x => x)); [apply W| |].
        * rewrite map_id. pose proof (sorted_filter_seq (fun _ => true) (length (s_cbi m) - bc) bc) as Q. replace (filter _ _) with (seq bc (length (s_cbi m) - bc)) in Q; auto.
          clear. generalize (seq bc (length (s_cbi m) - bc)). induction l as [|x l IH]; cbn; congruence.
        * intros cb H. apply in_seq in H. split; [lia|]. unfold across. destruct (get m bc cb) as [B|]; [|split; [constructor|intros e []]]. split; [apply (ss_seg (fun ci => B j ci))|].
          intros e He. apply in_map_iff in He. destruct He as (a & <- & He). apply in_seq in He. cbn [fst]. destruct (bc =? cb); lia.
      + intros [p v] [q u] Hp Hq. apply D in Hp. apply X in Hq. cbn [fst]. lia.
    - intros p v H. apply in_app_iff in H. destruct H as [H|H]; [apply D in H|apply X in H]; apply H.
    - intros p Hp. rewrite total_base in Hp. destruct (tile_exists _ _ _ Lo (le_n _) Hp) as (br & i & C1 & C2 & ->). unfold symm.
      destruct (Nat.leb_spec (base (s_rbi m) br + i) (base (s_cbi m) bc + j)) as [Le|Le].
      + rewrite S by auto. unfold blk. destruct (get m br bc) as [B|] eqn:E; auto. right. exists (B i j). apply in_app_iff. left. apply in_down; auto. exists br, i, B. split; auto. split; auto.
        unfold cnt_up. destruct (Nat.eqb_spec br bc) as [->|]; auto. rewrite Sq in Le. lia.
      + rewrite Sq in *. assert (Le2 : bc <= br). { destruct (Nat.le_gt_cases bc br); auto. pose proof (tile_lt (s_rbi m) br bc i j Lo). lia. }
        assert (EA : A (base (s_rbi m) bc + j) (base (s_rbi m) br + i) = blk m bc br j i). { rewrite <- (S bc br j i); auto; rewrite Sq in *; auto. } rewrite EA. unfold blk.
        destruct (get m bc br) as [B|] eqn:E; auto. right. exists (B j i). apply in_app_iff. right. apply in_across. exists br, i, B. split; [lia|]. split; auto. rewrite Sq.
        split; [destruct (Nat.eqb_spec bc br) as [->|]; lia|]. auto.
  Qed.
  Lemma values_ok : forall (m : sbm) upper, fillCCS_values m upper = (do x <- fillCCS m upper; Ok (snd x)).
  Proof. intros. apply fill_values_ok. Qed.
  Lemma upper_values_ok : forall (m : sbm), fillUpper_values m = (do x <- fillUpper m; Ok (snd x)).
  Proof. intros. apply fill_values_ok. Qed.

  Lemma full_values : forall (m : sbm) A, well_formed m -> stands_for m A ->
    exists x, fillCCS m false = Ok x /\ is_ccs (total (s_rbi m)) (total (s_cbi m)) A x /\ fillCCS_values m false = Ok (snd x).
  Proof. intros m A W S. destruct (fill_full m A W S) as (x & E & H). exists x. split; auto. split; auto. rewrite values_ok, E. auto. Qed.
  Lemma upper_both : forall (m : sbm) A, well_formed m -> s_cbi m = s_rbi m -> positive (s_rbi m) -> upper_only m -> stands_for m A ->
    (exists x, fillCCS m true = Ok x /\ is_ccs (total (s_rbi m)) (total (s_cbi m)) (triu A) x /\ fillCCS_values m true = Ok (snd x)) /\
    (exists x, fillUpper m = Ok x /\ is_ccs (total (s_rbi m)) (total (s_cbi m)) (symm A) x /\ fillUpper_values m = Ok (snd x)).
  Proof.
    intros m A W Sq P U S. destruct (fill_triu m A W Sq P U S) as (x & E & H). destruct (fill_symm m A W Sq P U S) as (y & E2 & H2). split.
    - exists x. split; auto. split; auto. rewrite values_ok, E. auto.
    - exists y. split; auto. split; auto. rewrite upper_values_ok, E2. auto.
  Qed.

  (** block structure *)
  Lemma concat_slices : forall (cols : list (list nat)) i acc, i < length cols ->
    firstn (nth (S i) (acc :: running acc (map (@length nat) cols)) 0 - nth i (acc :: running acc (map (@length nat) cols)) 0)
      (skipn (nth i (acc :: running acc (map (@length nat) cols)) 0 - acc) (concat cols)) = nth i cols [] /\ acc <= nth i (acc :: running acc (map (@length nat) cols)) 0.
  Proof.
    induction cols as [|x cols IH]; intros i acc H; [cbn in H; lia|]. destruct i as [|i].
    - cbn [map running nth concat]. rewrite Nat.sub_diag. cbn [skipn]. replace (acc + length x - acc) with (length x + 0) by lia. rewrite firstn_app_2, firstn_O, app_nil_r. split; auto.
    - cbn [length] in H. destruct (IH i (acc + length x)) as (I1 & I2); [lia|]. cbn [map running concat]. cbn [nth] in *. set (s := match i with 0 => _ | S _ => _ end) in *. split; [|lia].
      etransitivity; [|exact I1]. rewrite skipn_app. rewrite skipn_all2 by lia. cbn [app]. f_equal. f_equal. lia.
  Qed.
  Lemma structure_ok : forall (m : sbm) i, well_formed m -> i < length (s_cbi m) -> let x := fillBlockStructure m in
    let rows := firstn (nth (S i) (fst x) 0 - nth i (fst x) 0) (skipn (nth i (fst x) 0) (snd x)) in
    StronglySorted lt rows /\ forall r, In r rows <-> r <= i /\ get m r i <> None.
  Proof.
    intros m i W Hi x rows. set (cols := map (fun i => filter (fun r => r <=? i) (map fst (nth i (s_cols m) []))) (seq 0 (length (s_cols m)))).
    assert (E : rows = filter (fun r => r <=? i) (map fst (nth i (s_cols m) []))).
    { destruct (concat_slices cols i 0) as (I1 & _); [unfold cols; rewrite map_length, seq_length, (wf_len _ W); auto|]. rewrite Nat.sub_0_r in I1. unfold rows, x, fillBlockStructure. cbv zeta. fold cols. cbn [fst snd].
      etransitivity; [exact I1|]. unfold cols. rewrite (nth_indep _ [] (filter (fun r => r <=? 0) (map fst (nth 0 (s_cols m) [])))) by (rewrite map_length, seq_length, (wf_len _ W); auto).
      rewrite (map_nth (fun i => filter (fun r => r <=? i) (map fst (nth i (s_cols m) [])))), seq_nth by (rewrite (wf_len _ W); auto). auto. }
    rewrite E. split.
    - pose proof (wf_keys _ W i) as Sk. generalize dependent (map fst (nth i (s_cols m) [])). clear. intros l _ S. induction l as [|y l IH]; cbn [filter]; [constructor|]. apply StronglySorted_inv in S. destruct S as [S F].
      destruct (y <=? i); auto. constructor; auto. apply Forall_forall. intros z Hz. apply filter_In in Hz. rewrite Forall_forall in F. apply F. apply Hz.
    - intros r. rewrite filter_In, Nat.leb_le, in_map_iff. split.
      + intros (([r' B] & <- & H) & L). split; auto. cbn [fst]. assert (G : get m r' i = Some B) by (apply entry_get; auto; apply in_entries; split; auto; rewrite (wf_len _ W); auto). congruence.
      + intros (L & H). split; auto. destruct (get m r i) as [B|] eqn:G; [|congruence]. apply entry_get in G; auto. apply in_entries in G. exists (r, B). split; auto. apply G.
  Qed.
End Ops5.
