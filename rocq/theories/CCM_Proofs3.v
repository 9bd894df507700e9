(** * Proofs about the compressed-column matrix: products and the builder *)
From Coq Require Import Arith Lia List ZArith Bool Sorting.Sorted Sorting.Permutation.
From Verif Require Import Lib_Ring Lib_Res CCM_Model CCM_Spec CCM_Proofs CCM_Proofs2 Threads_Model Threads_Proofs Threads_Proofs4.
Import ListNotations.

Section Prod.
  Context {K : Type} {R : CRing K}.
  Add Ring Kring : (@kring K R).
  Notation wf := (@well_formed K).
  Notation means := (stands_for k0).
  Open Scope K_scope.

  Lemma add_column : forall (f : nat -> nat) (v : nat -> K) (x : K) n a y i,
    (forall p q, (a <= p -> p < q -> q < a + n -> f p < f q)%nat) ->
    let Y := fold_left (fun y p => fun i => if (i =? f p)%nat then y i + v p * x else y i) (seq a n) y in
    ((forall p, (a <= p < a + n)%nat -> f p <> i) -> Y i = y i) /\ (forall p, (a <= p < a + n)%nat -> f p = i -> Y i = y i + v p * x).
  Proof.
    intros f v x n. induction n as [|n IH]; intros a y i S; cbn [seq fold_left].
    - split; [auto|]. intros; lia.
    - set (y1 := fun i => if (i =? f a)%nat then y i + v a * x else y i). destruct (IH (Datatypes.S a) y1 i) as (I2 & I3); [intros; apply S; lia|].
      assert (X : forall p, (a < p < a + Datatypes.S n)%nat -> f p <> f a). { intros p Hp. pose proof (S a p). lia. }
      split.
      + intros N. rewrite I2 by (intros; apply N; lia). unfold y1. rewrite (proj2 (Nat.eqb_neq i (f a))); auto. intros E. apply (N a); [lia|auto].
      + intros p Hp Fp. destruct (Nat.eq_dec p a) as [->|N].
        * rewrite I2; [|intros q Hq; rewrite <- Fp; apply X; lia]. unfold y1. rewrite Fp, Nat.eqb_refl. auto.
        * rewrite (I3 p) by (auto; lia). unfold y1. rewrite (proj2 (Nat.eqb_neq i (f a))); auto. rewrite <- Fp. apply X. lia.
  Qed.

  Lemma right_fold : forall (m : ccm K) A (x : vec K), wf m -> means m A -> forall n c (y : vec K) i, (c + n <= c_cols m)%nat -> (i < c_rows m)%nat ->
    fold_left (fun s c => fold_left (fun s p => fun i => if (i =? rowind m p)%nat then s i + nth p (c_vals m) k0 * x c else s i)
               (seq (colptr m c) (colptr m (c + 1) - colptr m c)) s) (seq c n) y i = y i + ksum n (fun k => A i (c + k)%nat * x (c + k)%nat).
  Proof.
    intros m A x W S. induction n as [|n IH]; intros c y i L Hi; cbn [seq fold_left].
    - cbn. ring.
    - rewrite IH by lia. rewrite ksum_S_l. rewrite Nat.add_0_r.
      rewrite (ksum_ext n (fun k => A i (Datatypes.S c + k)%nat * x (Datatypes.S c + k)%nat) (fun k => A i (c + Datatypes.S k)%nat * x (c + Datatypes.S k)%nat))
        by (intros; replace (c + Datatypes.S i0)%nat with (Datatypes.S c + i0)%nat by lia; auto).
      pose proof (wf_mono _ W c ltac:(lia)) as Mo.
      destruct (add_column (rowind m) (fun p => nth p (c_vals m) k0) (x c) (colptr m (c + 1) - colptr m c) (colptr m c) y i) as (X2 & X3).
      { intros. apply (wf_sorted _ W c); lia. }
      destruct (in_column k0 m A i c W S Hi ltac:(lia)) as [(p & P1 & P2 & P3 & _)|(Q1 & Q2)].
      + rewrite (X3 p) by (auto; lia). rewrite P3. ring.
      + rewrite X2 by (intros; apply Q1; lia). rewrite Q2. ring.
  Qed.

  Lemma used_le : forall m, wf m -> (used_cols m <= c_cols m)%nat.
  Proof. intros. unfold used_cols. destruct (c_diag m); lia. Qed.

  Lemma right_ok : forall (m : ccm K) A (x : vec K), wf m -> means m A -> exists y, rightMultiply m (used_cols m) x = Ok y /\
    forall r, (r < c_rows m)%nat -> y r = ksum (used_cols m) (fun c => A r c * x c).
  Proof.
    intros m A x W S. unfold rightMultiply. rewrite Nat.eqb_refl. cbn [negb].
    rewrite (columns_ok k0 _ m _ (fun (y : vec K) c (e : nat * K) => fun i => if (i =? fst e)%nat then y i + snd e * x c else y i) W).
    - eexists. split; [reflexivity|]. intros r Hr. pose proof (right_fold m A x W S (used_cols m) 0 (fun _ => k0) r) as F. cbn [fst snd].
      pose proof (used_le m W). etransitivity; [apply F; auto; lia|]. cbn [Nat.add]. ring.
    - intros s c p Hc Hp. cbn [fst snd]. rewrite (proj2 (Nat.ltb_lt _ _) (wf_range _ W c p Hc Hp)). auto.
    - pose proof (used_le m W). lia.
  Qed.

  Lemma dot_column : forall (f : nat -> nat) (v : nat -> K) (x : vec K) c n a (y : vec K) i,
    fold_left (fun y p => fun i => if (i =? c)%nat then y i + v p * x (f p) else y i) (seq a n) y i =
    if (i =? c)%nat then y i + ksum n (fun k => v (a + k)%nat * x (f (a + k)%nat)) else y i.
  Proof.
    intros f v x c. induction n as [|n IH]; intros a y i; cbn [seq fold_left].
    - cbn. destruct (i =? c)%nat; [ring|auto].
    - rewrite IH. rewrite ksum_S_l, Nat.add_0_r. destruct (i =? c)%nat; auto.
      rewrite (ksum_ext n (fun k => v (Datatypes.S a + k)%nat * x (f (Datatypes.S a + k)%nat)) (fun k => v (a + Datatypes.S k)%nat * x (f (a + Datatypes.S k)%nat)))
        by (intros; replace (a + Datatypes.S i0)%nat with (Datatypes.S a + i0)%nat by lia; auto).
      ring.
  Qed.

  Lemma column_sum : forall (m : ccm K) A (x : vec K) c, wf m -> means m A -> (c < c_cols m)%nat ->
    ksum (colptr m (c + 1) - colptr m c) (fun k => nth (colptr m c + k) (c_vals m) k0 * x (rowind m (colptr m c + k))) = ksum (c_rows m) (fun r => A r c * x r).
  Proof.
    intros m A x c W S Hc. pose proof (wf_mono _ W c Hc) as Mo. set (a := colptr m c) in *. set (n := (colptr m (c + 1) - a)%nat).
    assert (E : forall r, (r < c_rows m)%nat -> A r c = ksum n (fun k => delta (rowind m (a + k)) r * nth (a + k) (c_vals m) k0)).
    { intros r Hr. destruct (in_column k0 m A r c W S Hr Hc) as [(p & P1 & P2 & P3 & P4)|(Q1 & Q2)]; [fold a in P1, P4|fold a in Q1].
      - rewrite (ksum_single n (p - a)); [|unfold n; lia|].
        2: { intros k Hk Nk. rewrite delta_neq; [ring|]. intros X. apply P4 in X; [lia|unfold n in Hk; lia]. }
        replace (a + (p - a))%nat with p by lia. rewrite P2, delta_refl, P3. ring.
      - rewrite Q2. symmetry. apply ksum_zero. intros k Hk. rewrite delta_neq; [ring|]. apply Q1. unfold n in Hk. lia. }
    rewrite (ksum_ext (c_rows m) (fun r => A r c * x r) (fun r => ksum n (fun k => delta (rowind m (a + k)) r * nth (a + k) (c_vals m) k0 * x r))).
    2: { intros r Hr. rewrite E by auto. rewrite ksum_mul_r. auto. }
    rewrite ksum_swap. apply ksum_ext. intros k Hk.
    rewrite (ksum_ext (c_rows m) _ (fun r => delta (rowind m (a + k)) r * (nth (a + k) (c_vals m) k0 * x r))) by (intros; ring).
    rewrite (ksum_delta_l (c_rows m) (rowind m (a + k)) (fun r => nth (a + k) (c_vals m) k0 * x r)); auto.
    apply (wf_range _ W c); auto. fold a. unfold n in Hk. lia.
  Qed.

  Lemma left_fold : forall (m : ccm K) A (x : vec K), wf m -> means m A -> forall n c (y : vec K) i, (c + n <= c_cols m)%nat ->
    fold_left (fun s c => fold_left (fun s p => fun i => if (i =? c)%nat then s i + nth p (c_vals m) k0 * x (rowind m p) else s i)
               (seq (colptr m c) (colptr m (c + 1) - colptr m c)) s) (seq c n) y i =
    if ((c <=? i) && (i <? c + n))%nat then y i + ksum (c_rows m) (fun r => A r i * x r) else y i.
  Proof.
    intros m A x W S. induction n as [|n IH]; intros c y i L; cbn [seq fold_left].
    - destruct (Nat.leb_spec c i), (Nat.ltb_spec i (c + 0)); cbn [andb]; auto; lia.
    - rewrite IH by lia. rewrite (dot_column (rowind m) (fun p => nth p (c_vals m) k0) x c).
      destruct (Nat.eqb_spec i c) as [->|N].
      + rewrite (proj2 (Nat.leb_gt (Datatypes.S c) c)) by lia. rewrite (proj2 (Nat.leb_le c c)), (proj2 (Nat.ltb_lt c (c + Datatypes.S n))) by lia. cbn [andb].
        rewrite (column_sum m A x c W S) by lia. auto.
      + destruct (Nat.leb_spec (Datatypes.S c) i), (Nat.leb_spec c i), (Nat.ltb_spec i (Datatypes.S c + n)), (Nat.ltb_spec i (c + Datatypes.S n)); cbn; auto; lia.
  Qed.

  Lemma left_ok : forall (m : ccm K) A (x : vec K), wf m -> means m A -> exists y, leftMultiply m (c_rows m) x = Ok y /\
    forall c, (c < used_cols m)%nat -> y c = ksum (c_rows m) (fun r => A r c * x r).
  Proof.
    intros m A x W S. unfold leftMultiply. rewrite Nat.eqb_refl. cbn [negb].
    rewrite (columns_ok k0 _ m _ (fun (y : vec K) c (e : nat * K) => fun i => if (i =? c)%nat then y i + snd e * x (fst e) else y i) W).
    - eexists. split; [reflexivity|]. intros r Hr. pose proof (left_fold m A x W S (used_cols m) 0 (fun _ => k0) r) as F. cbn [fst snd].
      pose proof (used_le m W). etransitivity; [apply F; lia|]. rewrite (proj2 (Nat.ltb_lt r (0 + used_cols m))) by (cbn; lia). cbn [Nat.leb andb]. ring.
    - intros s c p Hc Hp. cbn [fst snd]. rewrite (proj2 (Nat.ltb_lt _ _) (wf_range _ W c p Hc Hp)). auto.
    - pose proof (used_le m W). lia.
  Qed.
  Lemma sizes_refused : forall (m : ccm K) n (x : vec K), (n <> used_cols m -> rightMultiply m n x = Throw) /\ (n <> c_rows m -> leftMultiply m n x = Throw).
  Proof. intros m n x. unfold rightMultiply, leftMultiply. split; intros H; rewrite (proj2 (Nat.eqb_neq _ _)) by auto; auto. Qed.
End Prod.

(** ** the builder *)
Section Builder.
  Context {K : Type}.
  Variable z : K.
  Notation wf := (@well_formed K).
  Notation means := (stands_for z).
  Notation add_cols := (@add_cols K).

  Fixpoint pointers (s : nat) (es : list (eterm K)) : list jcp :=
    match es with
    | [] => []
    | e :: es' => let epc := total_dim (map jb_dv (e_jac e)) in mkJcp s epc (length (e_jac e)) :: pointers (s + epc * e_dim e) es'
    end.
  Definition zcols (es : list (eterm K)) : list (list (nat * K)) := flat_map (fun e => map (jac_col (map (zeroed z) (e_jac e))) (seq 0 (e_dim e))) es.
  Definition ncols (es : list (eterm K)) : list (list (nat * K)) := flat_map (fun e => map (jac_col (e_jac e)) (seq 0 (e_dim e))) es.
  Definition all_values (es : list (eterm K)) : list K := flat_map (fun e => flat_map (fun c => map snd (jac_col (e_jac e) c)) (seq 0 (e_dim e))) es.

  Lemma add_cols_app : forall a b (m : ccm K), add_cols m (a ++ b) = add_cols (add_cols m a) b.
  Proof. intros. unfold CCM_Proofs.add_cols. apply fold_left_app. Qed.

  Lemma append_terms_ok : forall es (m : ccm K), wf m -> c_diag m = false -> Forall (term_ok (c_rows m)) es ->
    (c_acc m = true \/ Forall (fun e => e_jac e <> []) es) ->
    append_terms z es m = Ok (add_cols m (zcols es), pointers (length (c_vals m)) es).
  Proof.
    induction es as [|e es IH]; intros m W D F A; cbn [append_terms zcols flat_map pointers]; auto.
    inversion F as [|? ? (J & P) F2]; subst. rewrite (append_symbolic z _ _ (e_jac e)); auto.
    2: { destruct A as [A|A]; auto. inversion A; auto. }
    cbn [bind fst snd]. set (zc := map (jac_col (map (zeroed z) (e_jac e))) (seq 0 (e_dim e))). destruct (add_cols_shape zc m) as (S1 & S2 & S3 & S4 & S5 & S6).
    rewrite IH.
    - cbn [bind fst snd]. rewrite add_cols_app. fold (zcols es). f_equal. f_equal. f_equal. rewrite S5, app_length.
      destruct (value_fill (c_rows m) (e_dim e) (map (zeroed z) (e_jac e)) 0 0 (zeroed_ok z _ _ _ J)) as (Z1 & _). rewrite zeroed_dvs in Z1.
      unfold zc. rewrite flat_map_mapped, Z1. auto.
    - apply add_cols_wf; auto. apply Forall_forall. intros c H. apply in_map_iff in H. destruct H as (i & <- & _). apply (jac_col_ok _ (e_dim e)). apply zeroed_ok; auto.
    - rewrite S3; auto.
    - rewrite S1; auto.
    - rewrite S4. destruct A as [A|A]; auto. right. inversion A; auto.
  Qed.

  Lemma fill_all : forall rows es s, Forall (term_ok rows) es ->
    (forall i v, In (i, v) (flat_map (@term_writes K) (combine es (pointers s es))) -> s <= i < s + length (all_values es) /\ nth_error (all_values es) (i - s) = Some v) /\
    (forall i, s <= i < s + length (all_values es) -> exists v, In (i, v) (flat_map (@term_writes K) (combine es (pointers s es)))).
  Proof.
    intros rows. induction es as [|e es IH]; intros s F; cbn [pointers combine flat_map all_values].
    - split; [intros i v []|]. cbn. intros; lia.
    - inversion F as [|? ? (J & P) F2]; subst. destruct (value_fill rows (e_dim e) (e_jac e) s (length (e_jac e)) J) as (B1 & B2 & B3).
      set (epc := total_dim (map jb_dv (e_jac e))) in *. cbv zeta. set (V := flat_map (fun c => map snd (jac_col (e_jac e) c)) (seq 0 (e_dim e))) in *.
      destruct (IH (s + epc * e_dim e) F2) as (I1 & I2). fold (all_values es) in *. rewrite app_length, B1. split.
      + intros i v H. apply in_app_iff in H. destruct H as [H|H].
        * unfold term_writes in H. cbn [fst snd] in H. apply B2 in H. destruct H as (H1 & H2). split; [lia|]. rewrite nth_error_app1 by lia. auto.
        * apply I1 in H. destruct H as (H1 & H2). split; [lia|]. rewrite nth_error_app2 by lia. rewrite B1. replace (i - s - epc * e_dim e) with (i - (s + epc * e_dim e)) by lia. auto.
      + intros i Hi. destruct (Nat.lt_ge_cases i (s + epc * e_dim e)) as [L|L].
        * destruct (B3 i ltac:(lia)) as (v & Hv). exists v. apply in_app_iff. left. exact Hv.
        * destruct (I2 i ltac:(lia)) as (v & Hv). exists v. apply in_app_iff. right. exact Hv.
  Qed.

  Lemma add_cols_same : forall cs cs' (m m' : ccm K), Forall2 (fun a b : list (nat * K) => map fst a = map fst b) cs cs' ->
    c_ri m = c_ri m' -> c_cp m = c_cp m' -> length (c_vals m) = length (c_vals m') ->
    c_ri (add_cols m cs) = c_ri (add_cols m' cs') /\ c_cp (add_cols m cs) = c_cp (add_cols m' cs') /\ length (c_vals (add_cols m cs)) = length (c_vals (add_cols m' cs')).
  Proof.
    intros cs cs' m m' H. revert m m'. induction H as [|a b cs cs' E H IH]; intros m m' E1 E2 E3; cbn [CCM_Proofs.add_cols fold_left]; auto.
    assert (L : length a = length b) by (rewrite <- (map_length fst a), E, map_length; auto).
    apply (IH (add_col m a) (add_col m' b)); cbn [add_col c_ri c_cp c_vals].
    - rewrite E1, E. auto.
    - rewrite E2, E3, L. auto.
    - rewrite !app_length, !map_length. lia.
  Qed.
  Lemma cols_same : forall es, Forall2 (fun a b : list (nat * K) => map fst a = map fst b) (zcols es) (ncols es).
  Proof.
    induction es as [|e es IH]; cbn [zcols ncols flat_map]; auto. apply Forall2_app; auto. generalize (seq 0 (e_dim e)). induction l; cbn [map]; constructor; auto.
    rewrite !jac_col_fst, zeroed_dvs. auto.
  Qed.
  Lemma ncols_values : forall es, flat_map (map snd) (ncols es) = all_values es.
  Proof. intros. unfold ncols, all_values. induction es as [|e es IH]; cbn [flat_map]; auto. rewrite flat_map_app, IH, flat_map_mapped. auto. Qed.
  Lemma ncols_length : forall es, length (ncols es) = list_sum (map (@e_dim K) es).
  Proof. induction es as [|e es IH]; cbn [ncols flat_map map]; auto. unfold ncols in *. rewrite app_length, map_length, seq_length, IH. auto. Qed.
  Lemma ncols_lookup : forall rows es r c, Forall (term_ok rows) es -> c < list_sum (map (@e_dim K) es) -> lookup z (nth c (ncols es) []) r = stacked z es r c.
  Proof.
    intros rows es r. induction es as [|e es IH]; intros c F L; [cbn in L; lia|]. cbn [ncols flat_map stacked]. inversion F as [|? ? (J & P) F2]; subst.
    change (list_sum (map (@e_dim K) (e :: es))) with (e_dim e + list_sum (map (@e_dim K) es)) in L.
    assert (Lm : length (map (jac_col (e_jac e)) (seq 0 (e_dim e))) = e_dim e) by (rewrite map_length, seq_length; auto).
    destruct (Nat.ltb_spec c (e_dim e)) as [G|G].
    - rewrite app_nth1 by lia. rewrite (nth_indep _ [] (jac_col (e_jac e) 0)) by lia. rewrite map_nth, seq_nth by auto. apply (jac_lookup z _ _ _ _ _ J).
    - rewrite app_nth2 by lia. rewrite Lm. apply IH; auto. lia.
  Qed.
  Lemma ncols_ok : forall rows es, Forall (term_ok rows) es -> Forall (col_ok rows) (ncols es).
  Proof.
    intros rows es F. apply Forall_forall. intros x H. apply in_flat_map in H. destruct H as (e & I & H). apply in_map_iff in H. destruct H as (c & <- & _).
    rewrite Forall_forall in F. destruct (F e I) as (J & _). apply (jac_col_ok _ (e_dim e)); auto.
  Qed.

  Lemma pointers_length : forall es s, length (pointers s es) = length es.
  Proof. induction es; intros; cbn; auto. Qed.

  Lemma perm_puts : forall (V ws ws' : list (nat * K)) (Vf a : list K), Permutation ws ws' -> length a = length Vf ->
    (forall i v, In (i, v) ws' -> nth_error Vf i = Some v) -> (forall i, i < length Vf -> exists v, In (i, v) ws') -> puts ws a = Ok Vf.
  Proof.
    intros _ ws ws' Vf a P L F C. apply puts_final; auto.
    - intros i v H. apply F. apply (Permutation_in _ P). auto.
    - intros i. destruct (Nat.lt_ge_cases i (length Vf)) as [G|G].
      + left. destruct (C i G) as (v & H). exists v. apply (Permutation_in _ (Permutation_sym P)). auto.
      + right. rewrite !(proj2 (nth_error_None _ _)) by lia. auto.
  Qed.

  Lemma builder_ok : forall dvs d0 es (m : ccm K), dvs <> [] -> let rows := j_base (last dvs d0) + j_dim (last dvs d0) in Forall (term_ok rows) es ->
    (c_acc m = true \/ Forall (fun e => e_jac e <> []) es) ->
    exists m1 ps V, initStructure z dvs es m = Ok (m1, ps) /\ length ps = length es /\ c_rows m1 = rows /\ c_cols m1 = list_sum (map (@e_dim K) es) /\
      (forall ws a, Permutation ws (flat_map (@term_writes K) (combine es ps)) -> length a = length (c_vals m1) -> puts ws a = Ok V) /\
      wf (with_values m1 V) /\ means (with_values m1 V) (stacked z es).
  Proof.
    intros dvs d0 es m Ne rows F A. unfold initStructure. destruct dvs as [|d1 dvs]; [tauto|].
    assert (Ld : last (d1 :: dvs) d1 = last (d1 :: dvs) d0).
    { assert (G : forall (l : list jdv) x a b, last (x :: l) a = last (x :: l) b).
      { clear. induction l as [|y l IH]; intros x a b; auto. change (last (y :: l) a = last (y :: l) b). apply IH. }
      apply G. }
    rewrite Ld. fold rows. set (m0 := init rows 0 (clear m)).
    destruct (empty_ok z rows 0 (clear m) eq_refl eq_refl) as (W & Me). fold m0 in W, Me.
    rewrite append_terms_ok; auto. change (length (c_vals m0)) with 0.
    destruct (fill_all rows es 0 F) as (F1 & F2).
    destruct (add_cols_shape (zcols es) m0) as (S1 & S2 & S3 & S4 & S5 & S6). destruct (add_cols_shape (ncols es) m0) as (T1 & T2 & T3 & T4 & T5 & T6).
    destruct (add_cols_same _ _ m0 m0 (cols_same es) eq_refl eq_refl eq_refl) as (E1 & E2 & E3).
    assert (Lz : length (zcols es) = length (ncols es)) by (generalize (cols_same es); generalize (zcols es), (ncols es); induction 1; cbn; auto).
    assert (Ev : c_vals (add_cols m0 (ncols es)) = all_values es) by (rewrite T5; cbn [m0 init clear c_vals app]; apply ncols_values).
    exists (add_cols m0 (zcols es)), (pointers 0 es), (all_values es). split; [reflexivity|]. split; [apply pointers_length|]. split; [rewrite S1; auto|].
    split; [rewrite S2, Lz, ncols_length; auto|]. split.
    - intros ws a P L. eapply (perm_puts []); [exact P| | |].
      + rewrite L, E3, Ev. auto.
      + intros i v H. apply F1 in H. destruct H as (_ & H). rewrite Nat.sub_0_r in H. auto.
      + intros i H. apply F2. lia.
    - assert (Q : with_values (add_cols m0 (zcols es)) (all_values es) = add_cols m0 (ncols es)).
      { unfold with_values. rewrite S1, S2, S3, S4, E1, E2, Lz, <- Ev, <- T1, <- T2, <- T3, <- T4. destruct (add_cols m0 (ncols es)); auto. }
      rewrite Q. destruct (add_cols_ok z (ncols es) m0 (fun _ _ => z) W) as (W2 & M2); auto; [apply ncols_ok; auto|]. split; auto.
      eapply means_ext; [|exact M2]. intros r c Hr Hc. rewrite T2, ncols_length in Hc. change (c_cols m0) with 0 in *. cbn [Nat.ltb Nat.leb Nat.add] in *. rewrite Nat.sub_0_r.
      apply (ncols_lookup rows); auto.
  Qed.

  (* no two error terms write the same element *)
  Lemma disjoint_terms : forall rows es s, Forall (term_ok rows) es -> forall i j e f p q k v w, i <> j ->
    nth_error (combine es (pointers s es)) i = Some (e, p) -> nth_error (combine es (pointers s es)) j = Some (f, q) ->
    In (k, v) (term_writes (e, p)) -> In (k, w) (term_writes (f, q)) -> False.
  Proof.
    intros rows. assert (Main : forall es s, Forall (term_ok rows) es -> forall i j e f p q k v w, i < j ->
      nth_error (combine es (pointers s es)) i = Some (e, p) -> nth_error (combine es (pointers s es)) j = Some (f, q) ->
      In (k, v) (term_writes (e, p)) -> In (k, w) (term_writes (f, q)) -> False).
    { induction es as [|e0 es IH]; intros s F i j e f p q k v w L N1 N2 I1 I2; cbn [pointers combine] in *; [destruct i; discriminate|].
      inversion F as [|? ? (J & P) F2]; subst. destruct j as [|j]; [lia|]. destruct i as [|i]; cbn [nth_error] in *.
      - injection N1 as <- <-. destruct (value_fill rows (e_dim e0) (e_jac e0) s (length (e_jac e0)) J) as (_ & B2 & _).
        unfold term_writes in I1. cbn [fst snd] in I1. apply B2 in I1. destruct I1 as (I1 & _).
        destruct (fill_all rows es (s + total_dim (map jb_dv (e_jac e0)) * e_dim e0) F2) as (G & _).
        assert (X : In (k, w) (flat_map (@term_writes K) (combine es (pointers (s + total_dim (map jb_dv (e_jac e0)) * e_dim e0) es)))).
        { apply in_flat_map. exists (f, q). split; auto. eapply nth_error_In; eauto. }
        apply G in X. destruct X as (X & _). lia.
      - eapply (IH _ F2 i j); eauto. lia. }
    intros es s F i j e f p q k v w N. destruct (Nat.lt_gt_cases i j) as (H & _). destruct (H N) as [L|L].
    - apply (Main es s F i j); auto.
    - intros N1 N2 I1 I2. apply (Main es s F j i f e q p k w v); auto.
  Qed.

  Lemma init_pointers : forall dvs es (m m1 : ccm K) ps d0, dvs <> [] -> Forall (term_ok (j_base (last dvs d0) + j_dim (last dvs d0))) es ->
    (c_acc m = true \/ Forall (fun e => e_jac e <> []) es) -> initStructure z dvs es m = Ok (m1, ps) -> ps = pointers 0 es.
  Proof.
    intros dvs es m m1 ps d0 Ne F A H. unfold initStructure in H. destruct dvs as [|d1 dvs]; [tauto|].
    assert (Ld : last (d1 :: dvs) d1 = last (d1 :: dvs) d0).
    { assert (G : forall (l : list jdv) x a b, last (x :: l) a = last (x :: l) b).
      { clear. induction l as [|y l IH]; intros x a b; auto. change (last (y :: l) a = last (y :: l) b). apply IH. }
      apply G. }
    rewrite Ld in H. destruct (empty_ok z (j_base (last (d1 :: dvs) d0) + j_dim (last (d1 :: dvs) d0)) 0 (clear m) eq_refl eq_refl) as (W & _).
    rewrite append_terms_ok in H; auto. injection H as _ <-. auto.
  Qed.

  (* one thread: the code's loop performs these writes in order *)
  Lemma puts_app : forall T (u v : list (nat * T)) a, puts (u ++ v) a = bind (puts u a) (puts v).
  Proof. induction u as [|[i x] u IH]; intros v a; cbn [app puts bind]; auto. destruct (i <? length a); auto. Qed.
  Lemma build_puts : forall (eps : list (eterm K * jcp)) (m : ccm K), Forall (fun ep => length (e_jac (fst ep)) = p_active (snd ep)) eps ->
    build eps m = bind (puts (flat_map (@term_writes K) eps) (c_vals m)) (fun V => Ok (with_values m V)).
  Proof.
    induction eps as [|[e p] eps IH]; intros m F; cbn [build flat_map].
    - cbn [puts bind]. unfold with_values. destruct m; auto.
    - inversion F as [|? ? F1 F2]; subst. cbn [fst snd] in F1. unfold build_one, writeJacobians. rewrite F1, Nat.eqb_refl. cbn [negb]. rewrite puts_app. unfold term_writes at 1. cbn [fst snd].
      destruct (puts (value_writes p 0 (e_jac e)) (c_vals m)) as [v| |]; cbn [bind]; auto. rewrite IH by auto. cbn [c_vals]. destruct (puts _ v); auto.
  Qed.
  Lemma pointers_active : forall es s, Forall (fun ep : eterm K * jcp => length (e_jac (fst ep)) = p_active (snd ep)) (combine es (pointers s es)).
  Proof. induction es as [|e es IH]; intros s; cbn [pointers combine]; constructor; auto. Qed.

  (* the ranges handed to the threads cover all error terms *)
  Lemma jobs_writes : forall (eps : list (eterm K * jcp)) (ranges : list (nat * nat)) d,
    flat_map (fun p => seq (fst p) (snd p - fst p)) ranges = seq 0 (length eps) ->
    flat_map (fun p : nat * nat => flat_map (fun i => term_writes (nth i eps d)) (seq (fst p) (snd p - fst p))) ranges = flat_map (@term_writes K) eps.
  Proof.
    intros eps ranges d E.
    assert (G : flat_map (fun p : nat * nat => flat_map (fun i => term_writes (nth i eps d)) (seq (fst p) (snd p - fst p))) ranges =
                flat_map (fun i => term_writes (nth i eps d)) (flat_map (fun p => seq (fst p) (snd p - fst p)) ranges)).
    { clear E. induction ranges as [|p l IH]; cbn [flat_map]; auto. rewrite flat_map_app, IH. auto. }
    rewrite G, E. clear G E. rewrite <- flat_map_mapped with (f := @term_writes K) (g := fun i => nth i eps d). f_equal.
    apply nth_ext with (d := d) (d' := d); rewrite map_length, seq_length; auto. intros i Hi.
    rewrite (nth_indep _ d (nth 0 eps d)) by (rewrite map_length, seq_length; auto). rewrite (map_nth (fun i => nth i eps d)), seq_nth; auto.
  Qed.
End Builder.

(** ** the statements used in CCM_Props.v *)
Section User.
  Context {K : Type}.
  Variable z : K.

  Lemma c38_reached : forall (m : ccm K) a, reached z m a -> well_formed m /\ c_rows m = d_rows a /\ c_cols m = d_cols a /\
    (forall r c, r < d_rows a -> c < d_cols a -> element z m r c = Ok (d_mat a r c) /\ value z m r c = Ok (d_mat a r c)) /\
    (forall r c, d_rows a <= r \/ d_cols a <= c -> value z m r c = Throw) /\
    (exists D, toDense z m = Ok D /\ forall r c, r < d_rows a -> c < d_cols a -> D r c = d_mat a r c) /\
    (forall c, c < d_cols a -> exists col, column z m c = Ok col /\ StronglySorted lt (map fst col) /\ (forall r v, In (r, v) col -> r < d_rows a /\ d_mat a r c = v) /\
       (forall r, r < d_rows a -> ~ In r (map fst col) -> d_mat a r c = z)).
  Proof.
    intros m a H. destruct (reached_rep z m a H) as (A1 & A2 & A3 & A4 & W & Me & _).
    assert (El : forall r c, r < d_rows a -> c < d_cols a -> element z m r c = Ok (d_mat a r c)) by (intros; apply element_ok; auto; lia).
    split; auto. split; auto. split; auto. split; [|split; [|split]].
    - intros r c Hr Hc. split; auto. unfold value. rewrite A1, A2, (proj2 (Nat.ltb_lt _ _) Hr), (proj2 (Nat.ltb_lt _ _) Hc). apply El; auto.
    - intros r c Hrc. unfold value. rewrite A1, A2. destruct (Nat.ltb_spec r (d_rows a)), (Nat.ltb_spec c (d_cols a)); cbn; auto; lia.
    - destruct (toDense_ok z m _ W Me) as (D & D1 & D2). exists D. split; auto. intros; apply D2; lia.
    - intros c Hc. assert (Hc' : c < c_cols m) by lia. eexists. split; [apply column_ok; auto|]. set (col := map (fun p => (rowind m p, nth p (c_vals m) z)) (seq (colptr m c) (colptr m (c + 1) - colptr m c))).
      assert (Sc : StronglySorted lt (map fst col)).
      { unfold col. rewrite map_map. cbn [fst]. pose proof (wf_sorted _ W c) as So. specialize (fun p q => So p q Hc'). pose proof (wf_mono _ W c Hc').
        set (n := colptr m (c + 1) - colptr m c). assert (G : forall k s, colptr m c <= s -> s + k <= colptr m (c + 1) -> StronglySorted lt (map (fun p => rowind m p) (seq s k))).
        { induction k as [|k IH]; intros s L1 L2; cbn [seq map]; constructor; [apply IH; lia|]. apply Forall_forall. intros x Hx. apply in_map_iff in Hx.
          destruct Hx as (p & <- & Hp). apply in_seq in Hp. apply So; lia. }
        apply G; unfold n; lia. }
      split; auto. split.
      + intros r v I. apply in_map_iff in I. destruct I as (p & I1 & I2). injection I1 as I1 I3. apply in_seq in I2. pose proof (wf_mono _ W c Hc').
        assert (Rr : r < c_rows m) by (rewrite <- I1; apply (wf_range _ W c); auto; lia). split; [lia|].
        destruct (in_column z m _ r c W Me Rr Hc') as [(q & P1 & P2 & P3 & P4)|(Q1 & Q2)].
        * rewrite <- P3, <- I3. f_equal. symmetry. apply P4; auto. lia.
        * exfalso. apply (Q1 p); auto. lia.
      + intros r Hr N. destruct (in_column z m _ r c W Me ltac:(lia) Hc') as [(p & P1 & P2 & P3 & P4)|(Q1 & Q2)]; auto.
        exfalso. apply N. unfold col. rewrite map_map. cbn [fst]. apply in_map_iff. exists p. split; auto. apply in_seq. lia.
  Qed.
  Lemma c38_step : forall (m : ccm K) a o, reached z m a -> allowed o m a ->
    match meaning z o a with Some a1 => exists m1, exec z o m = Ok m1 /\ reached z m1 a1 | None => exec z o m = Throw end.
  Proof.
    intros m a o H Al. pose proof (step_ok z o m a (reached_rep z m a H) Al) as S. destruct (meaning z o a) as [a1|] eqn:E; auto.
    destruct S as (m1 & E1 & _). exists m1. split; auto. eapply r_call; eauto.
  Qed.
  Lemma c38_cholmod : forall (m : ccm K) a rows cols p i x, reached z m a -> d_diag a = false -> well_formed (mkCcm rows cols x i p false false) ->
    exists m', fromCholmod rows cols p i x m = Ok m' /\ c_rows m' = rows /\ c_cols m' = cols /\
      forall r c, r < rows -> c < cols ->
        (forall k, nth c p 0 <= k < nth (c + 1) p 0 -> nth k i 0 = r -> element z m' r c = Ok (nth k x z)) /\
        ((forall k, nth c p 0 <= k < nth (c + 1) p 0 -> nth k i 0 <> r) -> element z m' r c = Ok z).
  Proof.
    intros m a rows cols p i x H D W. pose proof (c38_step m a (OCholmod rows cols p i x) H (conj D W)) as Q. cbn [meaning exec] in Q. destruct Q as (m' & E & Re).
    exists m'. split; auto. destruct (c38_reached m' _ Re) as (_ & R1 & R2 & El & _). cbn [d_rows d_cols d_mat] in *. split; auto. split; auto.
    intros r c Hr Hc. destruct (El r c Hr Hc) as (El1 & _). rewrite El1. unfold csc_entry. destruct (List.find _ _) as [q|] eqn:F.
    - apply List.find_some in F. destruct F as (F1 & F2). apply in_seq in F1. apply Nat.eqb_eq in F2. split.
      + intros k Hk Ek. assert (k = q); [|subst; auto]. pose proof (wf_sorted _ W c) as So. unfold colptr, rowind in So. cbn [c_cols c_cp c_ri] in So.
        destruct (Nat.lt_trichotomy k q) as [L|[L|L]]; auto; [specialize (So k q)|specialize (So q k)]; lia.
      + intros N. exfalso. apply (N q); auto. lia.
    - split; auto. intros k Hk Ek. assert (G : (nth k i 0 =? r) = false) by (apply (List.find_none _ _ F k); apply in_seq; lia). rewrite Ek, Nat.eqb_refl in G. discriminate.
  Qed.

  Lemma c40_push : forall (m : ccm K) a d, reached z m a -> d_diag a = false -> length d = d_rows a ->
    exists m1 a1, pushDiagonal d m = Ok m1 /\ reached z m1 a1 /\ d_rows a1 = d_rows a /\ d_cols a1 = d_cols a + d_rows a /\
      (forall r c, d_mat a1 r c = if c <? d_cols a then d_mat a r c else if r =? c - d_cols a then nth r d z else z) /\
      popDiagonal m1 = Ok m /\ (forall d', pushDiagonal d' m1 = Throw) /\
      (forall d', length d' = d_rows a -> pushDiagonal d' m = updateDiagonal d' m1).
  Proof.
    intros m a d H D L. pose proof (reached_rep z m a H) as (A1 & A2 & A3 & A4 & W & Me & _).
    assert (P : pushDiagonal d m = Ok (pushed d m)). { rewrite push_code; auto. rewrite A1, L, Nat.eqb_refl, A3, D. auto. }
    exists (pushed d m), (with_diagonal z (fun i => nth i d z) (d_cols a) a). split; [exact P|]. split.
    { apply (r_call z (OPush d) m a); auto; [exact I|]. cbn [meaning]. rewrite D, L, Nat.eqb_refl. auto. }
    split; auto. split; auto. split; [intros; reflexivity|]. split; [apply pop_pushed; auto; congruence|]. split.
    - intros d'. rewrite push_code by (try exact z; apply pushed_wf; auto; congruence). cbn [pushed c_diag]. destruct (length d' =? _); auto.
    - intros d' L'. rewrite update_pushed by congruence. rewrite push_code; auto. rewrite A1, L', Nat.eqb_refl, A3, D. auto.
  Qed.
  Lemma c40_pop : forall (m : ccm K) a, reached z m a ->
    (d_diag a = false -> popDiagonal m = Throw /\ (forall d, updateDiagonal d m = Throw)) /\
    (d_diag a = true -> (forall d, pushDiagonal d m = Throw) /\ exists m0 a0 d, popDiagonal m = Ok m0 /\ reached z m0 a0 /\ d_diag a0 = false /\
       d_rows a0 = d_rows a /\ d_cols a = d_cols a0 + d_rows a /\ (forall r c, c < d_cols a0 -> d_mat a0 r c = d_mat a r c) /\ length d = d_rows a /\ pushDiagonal d m0 = Ok m).
  Proof.
    intros m a H. pose proof (reached_rep z m a H) as (A1 & A2 & A3 & A4 & W & Me & A7). split; intros D.
    - split; intros; [unfold popDiagonal|unfold updateDiagonal]; rewrite A3, D; auto.
    - destruct (A7 D) as (m0 & d & W0 & M0 & D0 & L & ->). split.
      + intros d'. rewrite push_code by (try exact z; apply pushed_wf; auto). cbn [pushed c_diag]. destruct (length d' =? _); auto.
      + cbn [pushed c_rows c_cols c_acc] in A1, A2, A4. exists m0, (mkDense (d_rows a) (d_cols a - d_rows a) (d_mat a) false (d_acc a)), d.
        assert (P : popDiagonal (pushed d m0) = Ok m0) by (apply pop_pushed; auto). split; auto. split.
        * apply (r_call z OPop (pushed d m0) a); auto; [exact I|]. cbn [meaning]. rewrite D. auto.
        * cbn [d_diag d_rows d_cols d_mat]. split; auto. split; auto. split; [lia|]. split; auto. split; [lia|].
          rewrite push_code by auto. rewrite L, Nat.eqb_refl, D0. auto.
  Qed.
  Lemma c40_reset : forall (m : ccm K) a rows cols, reached z m a ->
    exists m1, exec z (OReset rows cols) m = Ok m1 /\ reached z m1 (mkDense rows cols (fun _ _ => z) false (d_acc a)) /\ c_vals m1 = [] /\ c_ri m1 = [] /\ c_cp m1 = repeat 0 (cols + 1).
  Proof.
    intros m a rows cols H. exists (init rows cols (clear m)). split; [reflexivity|]. split; [|repeat split].
    apply (r_call z (OReset rows cols) m a); auto. exact I.
  Qed.

  Lemma c41_builder : forall dvs d0 es (m : ccm K) nThreads, dvs <> [] -> let rows := j_base (last dvs d0) + j_dim (last dvs d0) in Forall (term_ok rows) es ->
    (c_acc m = true \/ Forall (fun e => e_jac e <> []) es) -> (0 < Z.of_nat (length es) <= 2147483647)%Z -> (0 <= nThreads)%Z ->
    exists m1 ps V js, initStructure z dvs es m = Ok (m1, ps) /\ length ps = length es /\ c_rows m1 = rows /\ c_cols m1 = list_sum (map (@e_dim K) es) /\
      setupThreadedJob_ranges (Z.of_nat (length es)) nThreads = Ok js /\
      (forall d ws a, Permutation ws (flat_map (fun p => flat_map (fun i => term_writes (nth i (combine es ps) d)) (seq (fst p) (snd p - fst p))) (nat_ranges js)) ->
         length a = length (c_vals m1) -> puts ws a = Ok V) /\
      build (combine es ps) m1 = Ok (with_values m1 V) /\
      well_formed (with_values m1 V) /\ stands_for z (with_values m1 V) (stacked z es).
  Proof.
    intros dvs d0 es m n Ne rows F A Ls Hn. destruct (builder_ok z dvs d0 es m Ne F A) as (m1 & ps & V & B1 & B2 & B3 & B4 & B5 & B6 & B7).
    destruct (c10_ranges (Z.of_nat (length es)) n Ls Hn) as (js & J1 & J2 & J3). destruct J3 as (_ & _ & _ & J3). rewrite Nat2Z.id in J3.
    exists m1, ps, V, js. split; auto. split; auto. split; auto. split; auto. split; auto. split; [|split; [|split]]; auto.
    - intros d ws a P L. apply B5; auto. rewrite (jobs_writes (combine es ps)) in P; auto. rewrite combine_length, B2, Nat.min_id. auto.
    - assert (Ps : ps = pointers 0 es) by (apply (init_pointers z dvs es m m1 ps d0); auto). rewrite build_puts.
      + rewrite (B5 _ (c_vals m1) (Permutation_refl _) eq_refl). auto.
      + rewrite Ps. apply pointers_active.
  Qed.
  Lemma c41_disjoint : forall dvs d0 es (m m1 : ccm K) ps, dvs <> [] -> Forall (term_ok (j_base (last dvs d0) + j_dim (last dvs d0))) es ->
    (c_acc m = true \/ Forall (fun e => e_jac e <> []) es) -> initStructure z dvs es m = Ok (m1, ps) ->
    forall i j e f p q k v w, i <> j -> nth_error (combine es ps) i = Some (e, p) -> nth_error (combine es ps) j = Some (f, q) ->
      In (k, v) (term_writes (e, p)) -> In (k, w) (term_writes (f, q)) -> False.
  Proof.
    intros dvs d0 es m m1 ps Ne F A H. assert (Ps : ps = pointers 0 es) by (apply (init_pointers z dvs es m m1 ps d0); auto). rewrite Ps. eapply disjoint_terms; eauto.
  Qed.
End User.

Section UserProd.
  Context {K : Type} {R : CRing K}.
  Open Scope K_scope.
  Lemma c39_products : forall (m : ccm K) a (x : vec K), reached k0 m a -> let n := (if d_diag a then d_cols a - d_rows a else d_cols a)%nat in
    (exists y, rightMultiply m n x = Ok y /\ forall r, (r < d_rows a)%nat -> y r = ksum n (fun c => d_mat a r c * x c)) /\
    (exists y, leftMultiply m (d_rows a) x = Ok y /\ forall c, (c < n)%nat -> y c = ksum (d_rows a) (fun r => d_mat a r c * x r)) /\
    (forall k, k <> n -> rightMultiply m k x = Throw) /\ (forall k, k <> d_rows a -> leftMultiply m k x = Throw).
  Proof.
    intros m a x H n. pose proof (reached_rep k0 m a H) as (A1 & A2 & A3 & A4 & W & Me & A7).
    assert (U : used_cols m = n) by (unfold used_cols, n; rewrite A1, A2, A3; auto). rewrite <- U, <- A1. destruct (right_ok m _ x W Me) as (y & Y1 & Y2).
    destruct (left_ok m _ x W Me) as (y' & Y1' & Y2'). split; [exists y; auto|]. split; [exists y'; auto|]. split; intros; apply sizes_refused; auto.
  Qed.
End UserProd.
