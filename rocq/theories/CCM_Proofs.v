(** * Proofs about the compressed-column matrix *)
From Coq Require Import Arith Lia List ZArith Bool Sorting.Sorted Sorting.Permutation.
From Verif Require Import Lib_Ring Lib_Res CCM_Model CCM_Spec.
Import ListNotations.

(** ** std::lower_bound *)
Lemma lower_bound_spec : forall fuel f first len r, len <= fuel ->
  (forall p q, first <= p -> p < q -> q < first + len -> f p <= f q) ->
  let p := lower_bound fuel f first len r in
  first <= p <= first + len /\ (forall i, first <= i < p -> f i < r) /\ (forall i, p <= i < first + len -> r <= f i).
Proof.
  induction fuel as [|fuel IH]; intros f first len r L S; cbn [lower_bound].
  - split; [lia|]. split; intros; lia.
  - destruct (Nat.eqb_spec len 0) as [E|E]; [split; [lia|]; split; intros; lia|].
    pose proof (Nat.div_lt len 2 ltac:(lia) ltac:(lia)) as D. set (h := len / 2) in *.
    destruct (Nat.ltb_spec (f (first + h)) r) as [F|F].
    + specialize (IH f (first + h + 1) (len - h - 1) r ltac:(lia)).
      destruct IH as (I1 & I2 & I3); [intros; apply S; lia|]. split; [lia|]. split; [|intros; apply I3; lia].
      intros i Hi. destruct (Nat.lt_ge_cases i (first + h + 1)) as [G|G]; [|apply I2; lia].
      destruct (Nat.eq_dec i (first + h)) as [->|]; auto. pose proof (S i (first + h)). lia.
    + specialize (IH f first h r ltac:(lia)). destruct IH as (I1 & I2 & I3); [intros; apply S; lia|].
      split; [lia|]. split; auto. intros i Hi. destruct (Nat.lt_ge_cases i (first + h)) as [G|G]; [apply I3; lia|].
      destruct (Nat.eq_dec i (first + h)) as [->|]; auto. pose proof (S (first + h) i). lia.
Qed.

Lemma nth_error_nth_lt : forall T (l : list T) i d, i < length l -> nth_error l i = Some (nth i l d).
Proof. intros. apply nth_error_nth'. auto. Qed.

Section CCMP.
  Context {K : Type}.
  Variable z : K.
  Notation wf := (@well_formed K).
  Notation means := (stands_for z).

  Lemma cp_le : forall (m : ccm K), wf m -> forall c d, c <= d -> d <= c_cols m -> colptr m c <= colptr m d.
  Proof.
    intros m W c d L. induction L as [|d L IH]; intros D; auto.
    pose proof (wf_mono _ W d ltac:(lia)) as Q. rewrite Nat.add_1_r in Q. specialize (IH ltac:(lia)). lia.
  Qed.
  Lemma cp_bound : forall (m : ccm K), wf m -> forall c, c <= c_cols m -> colptr m c <= length (c_vals m).
  Proof. intros m W c L. rewrite <- (wf_last _ W). apply cp_le; auto. Qed.
  Lemma cp_error : forall (m : ccm K), wf m -> forall c, c <= c_cols m -> nth_error (c_cp m) c = Some (colptr m c).
  Proof. intros m W c L. apply nth_error_nth_lt. rewrite (wf_cp_len _ W). lia. Qed.

  Lemma element_ok : forall (m : ccm K) A r c, wf m -> means m A -> r < c_rows m -> c < c_cols m -> element z m r c = Ok (A r c).
  Proof.
    intros m A r c W S Hr Hc. unfold element. rewrite (cp_error _ W c) by lia. rewrite (cp_error _ W (c + 1)) by lia.
    pose proof (wf_mono _ W c Hc) as M. pose proof (cp_bound _ W (c + 1) ltac:(lia)) as B. rewrite (wf_ri_len _ W).
    rewrite (proj2 (Nat.leb_le _ _) M), (proj2 (Nat.leb_le _ _) B). cbn [andb]. cbv zeta.
    set (a := colptr m c) in *. set (b := colptr m (c + 1)) in *.
    pose proof (lower_bound_spec (b - a) (fun i => nth i (c_ri m) 0) a (b - a) r (le_n _)) as L.
    cbv zeta in L. destruct L as (L1 & L2 & L3).
    { intros p q H1 H2 H3. apply Nat.lt_le_incl. apply (wf_sorted _ W c p q Hc); fold a b; lia. }
    set (p := lower_bound _ _ _ _ _) in *.
    destruct (S r c Hr Hc) as [(q & Q1 & Q2 & Q3)|(Q1 & Q2)].
    - fold a b in Q1. assert (p = q).
      { destruct (Nat.lt_trichotomy p q) as [G|[G|G]]; auto.
        - pose proof (L3 p ltac:(lia)) as X. pose proof (wf_sorted _ W c p q Hc) as Y. fold a b in Y. unfold rowind in *. specialize (Y ltac:(lia) G ltac:(lia)). cbv beta in X. lia.
        - pose proof (L2 q ltac:(lia)) as X. cbv beta in X. unfold rowind in Q2. lia. }
      subst q. rewrite (proj2 (Nat.eqb_neq p b)) by lia. unfold rowind in Q2. rewrite Q2, Nat.eqb_refl. cbn [negb andb]. rewrite Q3. auto.
    - destruct (Nat.eqb_spec p b) as [E|E]; cbn [negb andb]; [rewrite Q2; auto|].
      destruct (Nat.eqb_spec (nth p (c_ri m) 0) r) as [F|F]; [|rewrite Q2; auto].
      exfalso. apply (Q1 p); [fold a b; lia|exact F].
  Qed.

  Lemma column_ok : forall (m : ccm K) c, wf m -> c < c_cols m ->
    column z m c = Ok (map (fun p => (rowind m p, nth p (c_vals m) z)) (seq (colptr m c) (colptr m (c + 1) - colptr m c))).
  Proof.
    intros m c W Hc. unfold column. rewrite (cp_error _ W c) by lia. rewrite (cp_error _ W (c + 1)) by lia.
    rewrite (wf_ri_len _ W), (proj2 (Nat.leb_le _ _) (cp_bound _ W (c + 1) ltac:(lia))). reflexivity.
  Qed.

  (* reading an entry off a column *)
  Lemma in_column : forall (m : ccm K) A r c, wf m -> means m A -> r < c_rows m -> c < c_cols m ->
    (exists p, colptr m c <= p < colptr m (c + 1) /\ rowind m p = r /\ nth p (c_vals m) z = A r c /\
       forall q, colptr m c <= q < colptr m (c + 1) -> rowind m q = r -> q = p) \/
    ((forall p, colptr m c <= p < colptr m (c + 1) -> rowind m p <> r) /\ A r c = z).
  Proof.
    intros m A r c W S Hr Hc. destruct (S r c Hr Hc) as [(p & P1 & P2 & P3)|Q]; [left|right; auto].
    exists p. split; auto. split; auto. split; [apply nth_error_nth; auto|].
    intros q Q1 Q2. destruct (Nat.lt_trichotomy p q) as [G|[G|G]]; auto.
    - pose proof (wf_sorted _ W c p q Hc). lia.
    - pose proof (wf_sorted _ W c q p Hc). lia.
  Qed.

  Lemma fold_ok : forall S T (f : S -> T -> res S) (g : S -> T -> S) l s, (forall s x, In x l -> f s x = Ok (g s x)) ->
    fold_left (fun s e => do x <- s; f x e) l (Ok s) = Ok (fold_left g l s).
  Proof.
    induction l as [|x l IH]; intros s H; cbn [fold_left]; auto. cbn [bind]. rewrite (H s x) by (left; auto).
    apply IH. intros; apply H; right; auto.
  Qed.
  Lemma columns_ok : forall S (m : ccm K) (f : S -> nat -> nat * K -> res S) (g : S -> nat -> nat * K -> S), wf m ->
    (forall s c p, c < c_cols m -> colptr m c <= p < colptr m (c + 1) -> f s c (rowind m p, nth p (c_vals m) z) = Ok (g s c (rowind m p, nth p (c_vals m) z))) ->
    forall n c s, c + n <= c_cols m -> columns z m f c n s = Ok (fold_left (fun s c =>
      fold_left (fun s p => g s c (rowind m p, nth p (c_vals m) z)) (seq (colptr m c) (colptr m (c + 1) - colptr m c)) s) (seq c n) s).
  Proof.
    intros S m f g W H. induction n as [|n IH]; intros c s L; cbn [columns seq fold_left]; auto.
    rewrite (column_ok m c W) by lia. cbn [bind].
    rewrite (fold_ok _ _ (fun x e => f x c e) (fun x e => g x c e)).
    - cbn [bind]. rewrite IH by lia. rewrite Nat.add_1_r. f_equal. f_equal. generalize (seq (colptr m c) (colptr m (Datatypes.S c) - colptr m c)). intros l.
      revert s. induction l as [|x l IHl]; intros s; cbn [map fold_left]; auto.
    - intros s0 x I. apply in_map_iff in I. destruct I as (p & <- & I). apply in_seq in I. apply H; [lia|].
      pose proof (wf_mono _ W c ltac:(lia)). lia.
  Qed.

  (* writing a column of a dense matrix *)
  Lemma write_column : forall (f : nat -> nat) (v : nat -> K) c n a M i j,
    (forall p q, a <= p -> p < q -> q < a + n -> f p < f q) ->
    let M' := fold_left (fun M p => fun i j => if (i =? f p) && (j =? c) then v p else M i j) (seq a n) M in
    (j <> c -> M' i j = M i j) /\ ((forall p, a <= p < a + n -> f p <> i) -> M' i j = M i j) /\
    (forall p, a <= p < a + n -> f p = i -> j = c -> M' i j = v p).
  Proof.
    intros f v c n. induction n as [|n IH]; intros a M i j S; cbn [seq fold_left].
    - split; [auto|]. split; [auto|]. intros; lia.
    - set (M1 := fun i j => if (i =? f a) && (j =? c) then v a else M i j). destruct (IH (Datatypes.S a) M1 i j) as (I1 & I2 & I3); [intros; apply S; lia|].
      assert (X : forall p, a < p < a + Datatypes.S n -> f p <> f a). { intros p Hp. pose proof (S a p). lia. }
      split; [|split].
      + intros N. rewrite I1 by auto. unfold M1. rewrite (proj2 (Nat.eqb_neq j c)) by auto. rewrite andb_false_r. auto.
      + intros N. rewrite I2 by (intros; apply N; lia). unfold M1. rewrite (proj2 (Nat.eqb_neq i (f a))); auto.
        intros E. apply (N a); [lia|auto].
      + intros p Hp Fp Jc. destruct (Nat.eq_dec p a) as [->|N].
        * rewrite I2; [|intros q Hq; rewrite <- Fp; apply X; lia]. unfold M1. rewrite Fp, Jc, !Nat.eqb_refl. auto.
        * apply I3; auto; lia.
  Qed.

  Lemma dense_fold : forall (m : ccm K) A, wf m -> means m A -> forall n c M i j, c + n <= c_cols m -> i < c_rows m ->
    let M' := fold_left (fun s c => fold_left (fun s p => fun i j => if (i =? rowind m p) && (j =? c) then nth p (c_vals m) z else s i j)
               (seq (colptr m c) (colptr m (c + 1) - colptr m c)) s) (seq c n) M in
    M i j = z \/ j < c \/ c + n <= j -> M' i j = if (c <=? j) && (j <? c + n) then A i j else M i j.
  Proof.
    intros m A W S. induction n as [|n IH]; intros c M i j L Hi; cbn [seq fold_left]; cbv zeta.
    - intros _. destruct (Nat.leb_spec c j), (Nat.ltb_spec j (c + 0)); cbn; auto; lia.
    - set (M1 := fold_left _ _ M). intros Z. pose proof (wf_mono _ W c ltac:(lia)) as Mo.
      pose proof (write_column (rowind m) (fun p => nth p (c_vals m) z) c (colptr m (c + 1) - colptr m c) (colptr m c) M i j) as X.
      cbv zeta in X. change (fold_left _ _ M) with M1 in X. destruct X as (X1 & X2 & X3).
      { intros. apply (wf_sorted _ W c); lia. }
      assert (M1j : j <> c -> M1 i j = M i j) by auto.
      cbv zeta in IH. rewrite IH; [|lia|auto|].
      + destruct (Nat.eq_dec j c) as [->|N].
        * rewrite (proj2 (Nat.leb_gt (Datatypes.S c) c)) by lia. cbn [andb].
          rewrite (proj2 (Nat.leb_le c c)), (proj2 (Nat.ltb_lt c (c + Datatypes.S n))) by lia. cbn [andb].
          destruct (in_column m A i c W S Hi ltac:(lia)) as [(p & P1 & P2 & P3 & _)|(Q1 & Q2)].
          -- rewrite <- P3. apply X3; auto; lia.
          -- rewrite Q2. rewrite X2; [|intros; apply Q1; lia]. destruct Z as [Z|Z]; auto; lia.
        * rewrite M1j by auto. destruct (Nat.leb_spec (Datatypes.S c) j), (Nat.leb_spec c j), (Nat.ltb_spec j (Datatypes.S c + n)), (Nat.ltb_spec j (c + Datatypes.S n)); cbn; auto; lia.
      + destruct (Nat.eq_dec j c) as [->|N]; [right; left; lia|]. rewrite M1j by auto. destruct Z as [Z|[Z|Z]]; [auto|right; left; lia|right; right; lia].
  Qed.

  Lemma toDense_ok : forall (m : ccm K) A, wf m -> means m A -> exists D, toDense z m = Ok D /\ forall r c, r < c_rows m -> c < c_cols m -> D r c = A r c.
  Proof.
    intros m A W S. unfold toDense. pose proof (wf_cp_len _ W) as L. destruct (c_cp m) as [|x l] eqn:E; [cbn in L; lia|].
    rewrite <- E. rewrite (columns_ok _ m _ (fun M c (e : nat * K) => fun i j => if (i =? fst e) && (j =? c) then snd e else M i j) W).
    - eexists. split; [reflexivity|]. intros r c Hr Hc.
      pose proof (dense_fold m A W S (c_cols m) 0 (fun _ _ => z) r c) as D. cbv zeta in D. cbn [fst snd]. rewrite (wf_cp_len _ W), Nat.add_sub.
      rewrite D; [|lia|auto|left; auto]. rewrite (proj2 (Nat.ltb_lt c (0 + c_cols m))) by lia. reflexivity.
    - intros s c p Hc Hp. cbn [fst snd]. rewrite (proj2 (Nat.ltb_lt _ _) (wf_range _ W c p Hc Hp)), (proj2 (Nat.ltb_lt _ _) Hc). reflexivity.
    - rewrite (wf_cp_len _ W). lia.
  Qed.

  (** ** adding a column at the right *)
  Definition add_col (m : ccm K) (col : list (nat * K)) : ccm K :=
    mkCcm (c_rows m) (c_cols m + 1) (c_vals m ++ map snd col) (c_ri m ++ map fst col) (c_cp m ++ [length (c_vals m) + length col]) (c_diag m) (c_acc m).
  Definition add_cols (m : ccm K) (cols : list (list (nat * K))) : ccm K := fold_left add_col cols m.
  Definition col_ok (rows : nat) (col : list (nat * K)) : Prop := Forall (fun e => fst e < rows) col /\ StronglySorted (fun a b => fst a < fst b) col.
  Fixpoint lookup (col : list (nat * K)) (r : nat) : K := match col with [] => z | (i, v) :: t => if i =? r then v else lookup t r end.

  Lemma sorted_nth : forall (col : list (nat * K)) d, StronglySorted (fun a b => fst a < fst b) col ->
    forall p q, p < q -> q < length col -> fst (nth p col d) < fst (nth q col d).
  Proof.
    induction col as [|x col IH]; intros d S p q P Q; [cbn in Q; lia|]. apply StronglySorted_inv in S. destruct S as [S F].
    destruct q as [|q]; [lia|]. cbn [length] in Q. destruct p as [|p]; cbn [nth].
    - rewrite Forall_forall in F. apply F. apply nth_In. lia.
    - apply IH; auto; lia.
  Qed.
  Lemma nth_fst : forall (col : list (nat * K)) p, nth p (map fst col) 0 = fst (nth p col (0, z)).
  Proof. intros. change 0 with (fst (0, z)) at 1. apply map_nth. Qed.
  Lemma lookup_spec : forall col r, StronglySorted (fun a b => fst a < fst b) col ->
    (exists p, p < length col /\ fst (nth p col (0, z)) = r /\ snd (nth p col (0, z)) = lookup col r) \/
    ((forall p, p < length col -> fst (nth p col (0, z)) <> r) /\ lookup col r = z).
  Proof.
    induction col as [|[i v] col IH]; intros r S; cbn [lookup length]; [right; split; [intros; lia|auto]|].
    apply StronglySorted_inv in S. destruct S as [S F]. destruct (Nat.eqb_spec i r) as [E|E].
    - left. exists 0. cbn. split; [lia|auto].
    - destruct (IH r S) as [(p & P1 & P2 & P3)|(Q1 & Q2)]; [left|right].
      + exists (Datatypes.S p). cbn [nth]. split; [lia|auto].
      + split; auto. intros [|p] Hp; cbn [nth]; auto. apply Q1. lia.
  Qed.

  Lemma add_cp_old : forall m col c, wf m -> c <= c_cols m -> colptr (add_col m col) c = colptr m c.
  Proof. intros m col c W L. unfold colptr, add_col. cbn [c_cp]. apply app_nth1. rewrite (wf_cp_len _ W). lia. Qed.
  Lemma add_cp_new : forall m col, wf m -> colptr (add_col m col) (c_cols m + 1) = length (c_vals m) + length col.
  Proof. intros m col W. unfold colptr, add_col. cbn [c_cp]. rewrite app_nth2; rewrite (wf_cp_len _ W); [|lia]. rewrite Nat.sub_diag. reflexivity. Qed.
  Lemma add_ri_old : forall m col p, wf m -> p < length (c_vals m) -> rowind (add_col m col) p = rowind m p.
  Proof. intros m col p W L. unfold rowind, add_col. cbn [c_ri]. apply app_nth1. rewrite (wf_ri_len _ W). auto. Qed.
  Lemma add_ri_new : forall m col p, wf m -> rowind (add_col m col) (length (c_vals m) + p) = fst (nth p col (0, z)).
  Proof. intros m col p W. unfold rowind, add_col. cbn [c_ri]. rewrite app_nth2; rewrite (wf_ri_len _ W); [|lia]. rewrite Nat.add_comm, Nat.add_sub. apply nth_fst. Qed.

  Lemma add_wf : forall m col, wf m -> col_ok (c_rows m) col -> wf (add_col m col).
  Proof.
    intros m col W (F & S).
    assert (Lv : length (c_vals (add_col m col)) = length (c_vals m) + length col) by (cbn; rewrite app_length, map_length; auto).
    assert (Cc : c_cols (add_col m col) = c_cols m + 1) by reflexivity.
    assert (Cr : c_rows (add_col m col) = c_rows m) by reflexivity.
    constructor; rewrite ?Cc, ?Cr.
    - cbn. rewrite app_length, (wf_cp_len _ W). cbn. lia.
    - rewrite Lv. cbn. rewrite app_length, map_length, (wf_ri_len _ W). auto.
    - rewrite add_cp_old by (auto; lia). apply (wf_first _ W).
    - rewrite add_cp_new by auto. auto.
    - intros c Hc. destruct (Nat.eq_dec c (c_cols m)) as [->|N].
      + rewrite add_cp_new, add_cp_old by (auto; lia). rewrite (wf_last _ W). lia.
      + rewrite !add_cp_old by (auto; lia). apply (wf_mono _ W). lia.
    - intros c p Hc Hp. destruct (Nat.eq_dec c (c_cols m)) as [->|N].
      + rewrite add_cp_new, add_cp_old in Hp by (auto; lia). rewrite (wf_last _ W) in Hp.
        replace p with (length (c_vals m) + (p - length (c_vals m))) by lia. rewrite add_ri_new by auto.
        rewrite Forall_forall in F. apply F. apply nth_In. lia.
      + rewrite !add_cp_old in Hp by (auto; lia). pose proof (cp_bound _ W (c + 1) ltac:(lia)). rewrite add_ri_old by (auto; lia). apply (wf_range _ W c p); auto; lia.
    - intros c p q Hc Hp Hpq Hq. destruct (Nat.eq_dec c (c_cols m)) as [->|N].
      + rewrite add_cp_old in Hp by (auto; lia). rewrite add_cp_new in Hq by auto. rewrite (wf_last _ W) in Hp.
        replace p with (length (c_vals m) + (p - length (c_vals m))) by lia. replace q with (length (c_vals m) + (q - length (c_vals m))) by lia.
        rewrite !add_ri_new by auto. apply sorted_nth; auto; lia.
      + rewrite add_cp_old in Hp, Hq by (auto; lia). pose proof (cp_bound _ W (c + 1) ltac:(lia)). rewrite !add_ri_old by (auto; lia).
        apply (wf_sorted _ W c p q); auto; lia.
  Qed.

  Lemma add_means : forall m col A, wf m -> col_ok (c_rows m) col -> means m A ->
    means (add_col m col) (fun r c => if c <? c_cols m then A r c else lookup col r).
  Proof.
    intros m col A W (F & S) Me r c Hr Hc.
    assert (Cc : c_cols (add_col m col) = c_cols m + 1) by reflexivity. rewrite Cc in Hc.
    destruct (Nat.ltb_spec c (c_cols m)) as [L|L].
    - rewrite !add_cp_old by (auto; lia). pose proof (cp_bound _ W (c + 1) ltac:(lia)) as B.
      destruct (Me r c Hr L) as [(p & P1 & P2 & P3)|(Q1 & Q2)]; [left|right].
      + exists p. split; auto. rewrite add_ri_old by (auto; lia). split; auto. cbn [add_col c_vals]. rewrite nth_error_app1 by lia. auto.
      + split; auto. intros p Hp. rewrite add_ri_old by (auto; lia). auto.
    - assert (c = c_cols m) by lia. subst c. rewrite add_cp_new, add_cp_old by (auto; lia). rewrite (wf_last _ W).
      destruct (lookup_spec col r S) as [(p & P1 & P2 & P3)|(Q1 & Q2)]; [left|right].
      + exists (length (c_vals m) + p). split; [lia|]. rewrite add_ri_new by auto. split; auto. cbn [add_col c_vals].
        rewrite nth_error_app2 by lia. rewrite Nat.add_comm, Nat.add_sub. rewrite <- P3. apply map_nth_error. apply nth_error_nth_lt. auto.
      + split; auto. intros p Hp. replace p with (length (c_vals m) + (p - length (c_vals m))) by lia. rewrite add_ri_new by auto. apply Q1. lia.
  Qed.

  Lemma means_ext : forall m A B, (forall r c, r < c_rows m -> c < c_cols m -> A r c = B r c) -> means m A -> means m B.
  Proof. intros m A B E S r c Hr Hc. rewrite <- E by auto. apply S; auto. Qed.

  Lemma add_cols_shape : forall cols m, c_rows (add_cols m cols) = c_rows m /\ c_cols (add_cols m cols) = c_cols m + length cols /\
    c_diag (add_cols m cols) = c_diag m /\ c_acc (add_cols m cols) = c_acc m /\
    c_vals (add_cols m cols) = c_vals m ++ flat_map (map snd) cols /\ c_ri (add_cols m cols) = c_ri m ++ flat_map (map fst) cols.
  Proof.
    induction cols as [|col cols IH]; intros m; cbn [add_cols fold_left].
    - cbn [length flat_map]. rewrite !app_nil_r, Nat.add_0_r. repeat split.
    - destruct (IH (add_col m col)) as (I1 & I2 & I3 & I4 & I5 & I6). unfold add_cols in *. rewrite I1, I2, I3, I4, I5, I6.
      cbn [add_col c_rows c_cols c_diag c_acc c_vals c_ri flat_map length]. rewrite <- !app_assoc. repeat split. lia.
  Qed.
  Lemma add_cols_ok : forall cols m A, wf m -> Forall (col_ok (c_rows m)) cols -> means m A ->
    wf (add_cols m cols) /\ means (add_cols m cols) (fun r c => if c <? c_cols m then A r c else lookup (nth (c - c_cols m) cols []) r).
  Proof.
    induction cols as [|col cols IH]; intros m A W F Me; cbn [add_cols fold_left].
    - split; auto. eapply means_ext; [|exact Me]. intros r c Hr Hc. rewrite (proj2 (Nat.ltb_lt _ _) Hc). auto.
    - inversion F as [|? ? F1 F2]; subst. destruct (IH (add_col m col) (fun r c => if c <? c_cols m then A r c else lookup col r)) as (I1 & I2).
      + apply add_wf; auto.
      + exact F2.
      + apply add_means; auto.
      + split; [exact I1|]. eapply means_ext; [|exact I2]. intros r c Hr Hc. cbn [add_col c_cols].
        destruct (Nat.ltb_spec c (c_cols m + 1)), (Nat.ltb_spec c (c_cols m)); auto; try lia.
        * replace (c - c_cols m) with 0 by lia. reflexivity.
        * replace (c - c_cols m) with (Datatypes.S (c - (c_cols m + 1))) by lia. reflexivity.
  Qed.

  (** ** empty matrices *)
  Lemma repeat_nth0 : forall n i, nth i (repeat 0 n) 0 = 0.
  Proof. induction n; destruct i; cbn; auto. Qed.
  Lemma empty_ok : forall rows cols m, c_vals m = [] -> c_ri m = [] -> wf (init rows cols m) /\ means (init rows cols m) (fun _ _ => z).
  Proof.
    intros rows cols m V I. assert (P : forall c, colptr (init rows cols m) c = 0) by (intros; unfold colptr, init; cbn [c_cp]; apply repeat_nth0).
    split.
    - constructor; rewrite ?P; auto; try (intros; rewrite ?P in *; lia).
      + cbn. rewrite repeat_length. auto.
      + cbn. rewrite V, I. auto.
      + cbn. rewrite V. auto.
    - intros r c Hr Hc. right. split; auto. intros p Hp. rewrite !P in Hp. lia.
  Qed.

  (** ** fromDense *)
  Lemma dense_loop_add : forall keep M rows n c m, let cols := map (dense_column keep M rows) (seq c n) in
    dense_loop keep M rows c n (c_vals m) (c_ri m) (c_cp m) = (c_vals (add_cols m cols), c_ri (add_cols m cols), c_cp (add_cols m cols)).
  Proof.
    intros keep M rows. induction n as [|n IH]; intros c m; cbn [dense_loop seq map add_cols fold_left]; auto.
    specialize (IH (c + 1) (add_col m (dense_column keep M rows c))). cbv zeta in IH. rewrite Nat.add_1_r in IH. cbn [add_col c_vals c_ri c_cp] in IH.
    rewrite app_length, map_length, Nat.add_1_r. exact IH.
  Qed.
  Lemma sorted_filter_seq : forall (f : nat -> bool) n a, StronglySorted lt (filter f (seq a n)).
  Proof.
    intros f. induction n as [|n IH]; intros a; cbn [seq filter]; [constructor|]. destruct (f a); auto. constructor; auto.
    apply Forall_forall. intros x H. apply filter_In in H. destruct H as [H _]. apply in_seq in H. lia.
  Qed.
  Lemma sorted_map_pair : forall (v : nat -> K) l, StronglySorted lt l -> StronglySorted (fun a b : nat * K => fst a < fst b) (map (fun r => (r, v r)) l).
  Proof.
    intros v. induction l as [|x l IH]; intros S; cbn [map]; [constructor|]. apply StronglySorted_inv in S. destruct S as [S F]. constructor; auto.
    apply Forall_forall. intros y H. apply in_map_iff in H. destruct H as (u & <- & H). cbn. rewrite Forall_forall in F. auto.
  Qed.
  Lemma dense_col_ok : forall keep M rows c, col_ok rows (dense_column keep M rows c).
  Proof.
    intros. unfold dense_column. split.
    - apply Forall_forall. intros x H. apply in_map_iff in H. destruct H as (u & <- & H). apply filter_In in H. destruct H as [H _]. apply in_seq in H. cbn. lia.
    - apply sorted_map_pair. apply sorted_filter_seq.
  Qed.
  Lemma lookup_in : forall col r v, StronglySorted (fun a b : nat * K => fst a < fst b) col -> In (r, v) col -> lookup col r = v.
  Proof.
    induction col as [|[i u] col IH]; intros r v S H; [destruct H|]. cbn [lookup]. apply StronglySorted_inv in S. destruct S as [S F]. destruct H as [H|H].
    - injection H as -> ->. rewrite Nat.eqb_refl. auto.
    - rewrite Forall_forall in F. specialize (F _ H). cbn in F. rewrite (proj2 (Nat.eqb_neq i r)) by lia. auto.
  Qed.
  Lemma lookup_none : forall col r, (forall v, ~ In (r, v) col) -> lookup col r = z.
  Proof.
    induction col as [|[i u] col IH]; intros r H; cbn [lookup]; auto. destruct (Nat.eqb_spec i r) as [->|].
    - exfalso. apply (H u). left; auto.
    - apply IH. intros v X. apply (H v). right; auto.
  Qed.
  Lemma dense_lookup : forall keep M rows c r, r < rows -> lookup (dense_column keep M rows c) r = if keep (M r c) then M r c else z.
  Proof.
    intros keep M rows c r Hr. destruct (keep (M r c)) eqn:E.
    - apply lookup_in; [apply dense_col_ok|]. apply in_map_iff. exists r. split; auto. apply filter_In. split; auto. apply in_seq. lia.
    - apply lookup_none. intros v H. apply in_map_iff in H. destruct H as (u & X & H). injection X as X1 X2. subst. apply filter_In in H. destruct H. congruence.
  Qed.

  Lemma wf_consistent : forall (m : ccm K), wf m -> consistent m = true.
  Proof.
    intros m W. unfold consistent. pose proof (wf_cp_len _ W) as L. assert (E : last (c_cp m) 0 = length (c_vals m)).
    { rewrite <- (wf_last _ W). unfold colptr. destruct (exists_last (l := c_cp m)) as (l & x & E); [intros X; rewrite X in L; cbn in L; lia|].
      rewrite E in *. rewrite app_length in L. cbn in L. rewrite last_last. rewrite app_nth2 by lia. replace (c_cols m - length l) with 0 by lia. auto. }
    rewrite E, (wf_ri_len _ W), L, !Nat.eqb_refl. auto.
  Qed.
  Lemma wf_cp_last : forall (m : ccm K), wf m -> last (c_cp m) 0 = length (c_vals m).
  Proof. intros m W. apply wf_consistent in W. unfold consistent in W. apply andb_prop in W. destruct W as [W _]. apply andb_prop in W. destruct W as [W _]. apply Nat.eqb_eq. auto. Qed.

  Lemma fromDense_ok : forall keep M rows cols m, exists m', fromDense keep M rows cols m = Ok m' /\
    wf m' /\ means m' (fun r c => if keep (M r c) then M r c else z) /\ c_rows m' = rows /\ c_cols m' = cols /\ c_diag m' = c_diag m /\ c_acc m' = c_acc m.
  Proof.
    intros keep M rows cols m. unfold fromDense. set (e := mkCcm rows 0 ([] : list K) [] [0] (c_diag m) (c_acc m)).
    pose proof (dense_loop_add keep M rows cols 0 e) as D. cbv zeta in D. cbn [e c_vals c_ri c_cp] in D. rewrite D.
    set (news := map (dense_column keep M rows) (seq 0 cols)) in *. destruct (add_cols_shape news e) as (S1 & S2 & S3 & S4 & _ & _).
    assert (We : wf e /\ means e (fun _ _ => z)).
    { destruct (empty_ok rows 0 (mkCcm 0 0 [] [] [] false (c_acc m)) eq_refl eq_refl) as (W & Me). split.
      - destruct W. constructor; auto.
      - intros r c Hr Hc. cbn in Hc. lia. }
    destruct (add_cols_ok news e (fun _ _ => z) (proj1 We)) as (W & Me); [|apply We|].
    { apply Forall_forall. intros x H. apply in_map_iff in H. destruct H as (c & <- & _). apply dense_col_ok. }
    assert (Ln : length news = cols) by (unfold news; rewrite map_length, seq_length; auto).
    assert (E : mkCcm rows cols (c_vals (add_cols e news)) (c_ri (add_cols e news)) (c_cp (add_cols e news)) (c_diag m) (c_acc m) = add_cols e news).
    { destruct (add_cols e news) as [r1 c1 v1 i1 p1 d1 a1]. cbn in S1, S2, S3, S4 |- *. rewrite S1, S2, S3, S4, Ln. reflexivity. }
    rewrite E. unfold checked. rewrite (wf_consistent _ W). exists (add_cols e news). split; auto. split; auto. split; [|rewrite S1, S2, S3, S4, Ln; auto].
    eapply means_ext; [|exact Me]. intros r c Hr Hc. rewrite S1 in Hr. rewrite S2, Ln in Hc. cbn in Hr, Hc. cbn [e c_cols].
    replace (c <? 0) with false by reflexivity. rewrite Nat.sub_0_r. unfold news.
    rewrite (nth_indep _ [] (dense_column keep M rows 0)) by (rewrite map_length, seq_length; auto).
    rewrite map_nth, seq_nth by auto. apply dense_lookup; auto.
  Qed.

  (** ** the diagonal *)
  Definition diag_cols (d : list K) (n : nat) : list (list (nat * K)) := map (fun i => [(i, nth i d z)]) (seq 0 n).
  Definition pushed (d : list K) (m : ccm K) : ccm K :=
    mkCcm (c_rows m) (c_cols m + c_rows m) (c_vals m ++ d) (c_ri m ++ seq 0 (c_rows m))
          (c_cp m ++ map (fun i => last (c_cp m) 0 + i) (seq 1 (c_rows m))) true (c_acc m).
  Definition flagged (b : bool) (m : ccm K) : ccm K := mkCcm (c_rows m) (c_cols m) (c_vals m) (c_ri m) (c_cp m) b (c_acc m).
  Lemma flagged_wf : forall b m, wf m -> wf (flagged b m). Proof. intros b m W; destruct W; constructor; auto. Qed.

  (* any number of new columns of one length *)
  Lemma add_cols_cp : forall w cols m, Forall (fun c : list (nat * K) => length c = w) cols ->
    c_cp (add_cols m cols) = c_cp m ++ map (fun i => length (c_vals m) + i * w) (seq 1 (length cols)).
  Proof.
    intros w. induction cols as [|col cols IH]; intros m F; cbn [add_cols fold_left length seq map].
    - rewrite app_nil_r. auto.
    - inversion F as [|? ? F1 F2]; subst. unfold add_cols in IH. rewrite IH by auto. cbn [add_col c_cp c_vals]. rewrite <- app_assoc. cbn [app]. f_equal.
      f_equal; [lia|]. rewrite <- (seq_shift _ 1), map_map. apply map_ext. intros i. rewrite app_length, map_length. cbn [Nat.mul]. lia.
  Qed.
  Lemma diag_flat : forall d n, length d = n -> flat_map (map snd) (diag_cols d n) = d /\ flat_map (map fst) (diag_cols d n) = seq 0 n.
  Proof.
    intros d n L. unfold diag_cols. rewrite !flat_map_concat_map, !map_map. cbn [map fst snd]. split.
    - replace (map (fun x => [nth x d z]) (seq 0 n)) with (map (fun x => [x]) d).
      + rewrite <- flat_map_concat_map. induction d; cbn; auto. f_equal. clear. induction d; cbn; auto. f_equal; auto.
      + subst n. clear. apply nth_ext with (d := [z]) (d' := [z]); rewrite !map_length, ?seq_length; auto. intros i Hi.
        rewrite (map_nth (fun x => [x]) d z). rewrite (nth_indep _ [z] [nth 0 d z]) by (rewrite map_length, seq_length; auto).
        rewrite (map_nth (fun x => [nth x d z]) (seq 0 (length d)) 0), seq_nth by auto. auto.
    - rewrite <- flat_map_concat_map. generalize (seq 0 n). induction l; cbn; auto. f_equal; auto.
  Qed.
  Lemma pushed_add : forall d m, wf m -> length d = c_rows m -> pushed d m = flagged true (add_cols m (diag_cols d (c_rows m))).
  Proof.
    intros d m W L. destruct (add_cols_shape (diag_cols d (c_rows m)) m) as (S1 & S2 & _ & S4 & S5 & S6).
    destruct (diag_flat d (c_rows m) L) as (F1 & F2). unfold pushed, flagged. rewrite S1, S2, S4, S5, S6, F1, F2.
    rewrite (add_cols_cp 1) by (apply Forall_forall; intros x H; apply in_map_iff in H; destruct H as (i & <- & _); auto).
    unfold diag_cols. rewrite map_length, seq_length, (wf_cp_last _ W). f_equal. f_equal. apply map_ext. intros. lia.
  Qed.
  Lemma diag_cols_ok : forall d n, Forall (col_ok n) (diag_cols d n).
  Proof.
    intros. apply Forall_forall. intros x H. apply in_map_iff in H. destruct H as (i & <- & H). apply in_seq in H. split.
    - constructor; [cbn; lia|constructor].
    - repeat constructor.
  Qed.
  Lemma add_cols_wf : forall cols m, wf m -> Forall (col_ok (c_rows m)) cols -> wf (add_cols m cols).
  Proof.
    induction cols as [|col cols IH]; intros m W F; cbn [add_cols fold_left]; auto. inversion F as [|? ? F1 F2]; subst.
    apply (IH (add_col m col)); auto. apply add_wf; auto.
  Qed.
  Lemma pushed_wf : forall d m, wf m -> length d = c_rows m -> wf (pushed d m).
  Proof. intros. rewrite pushed_add by auto. apply flagged_wf. apply add_cols_wf; auto. apply diag_cols_ok. Qed.
  Lemma pushed_ok : forall d m A, wf m -> means m A -> length d = c_rows m ->
    wf (pushed d m) /\ means (pushed d m) (fun r c => if c <? c_cols m then A r c else if r =? c - c_cols m then nth r d z else z).
  Proof.
    intros d m A W Me L. rewrite pushed_add by auto.
    destruct (add_cols_ok (diag_cols d (c_rows m)) m A W) as (W2 & M2); auto.
    { apply diag_cols_ok. }
    split; [apply flagged_wf; auto|].
    assert (M3 : means (add_cols m (diag_cols d (c_rows m))) (fun r c => if c <? c_cols m then A r c else if r =? c - c_cols m then nth r d z else z)).
    { eapply means_ext; [|exact M2]. intros r c Hr Hc. destruct (add_cols_shape (diag_cols d (c_rows m)) m) as (S1 & S2 & _). rewrite S2 in Hc.
      unfold diag_cols in Hc. rewrite map_length, seq_length in Hc. destruct (Nat.ltb_spec c (c_cols m)) as [G|G]; auto.
      unfold diag_cols. rewrite (nth_indep _ [] ((fun i => [(i, nth i d z)]) 0)) by (rewrite map_length, seq_length; lia).
      rewrite (map_nth (fun i => [(i, nth i d z)])), seq_nth by lia. cbn [lookup]. cbn [Nat.add].
      destruct (Nat.eqb_spec (c - c_cols m) r), (Nat.eqb_spec r (c - c_cols m)); subst; auto; lia. }
    exact M3.
  Qed.

  Lemma push_code : forall d m, wf m -> pushDiagonal d m = if length d =? c_rows m then if c_diag m then Throw else Ok (pushed d m) else Throw.
  Proof.
    intros d m W. unfold pushDiagonal. rewrite (wf_consistent _ W). cbn [negb]. destruct (Nat.eqb_spec (length d) (c_rows m)) as [L|L]; cbn [negb]; auto.
    destruct (c_diag m); auto. fold (pushed d m). unfold checked. rewrite wf_consistent; auto.
    apply pushed_wf; auto.
  Qed.
End CCMP.
