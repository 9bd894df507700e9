(** * Block linear solvers: arrays, sizes and patterns *)
From Coq Require Import Arith Lia List Bool Sorting.Sorted.
From Verif Require Import Lib_Ring Lib_Res CCM_Model SBM_Model SBM_Spec SBM_Proofs SBM_Proofs2 SBM_Proofs3 SBM_Proofs4 SBM_Proofs5 Cov_Model Cov_Spec BSolver_Model BSolver_Spec.
From Verif Require CCM_Spec.
Import ListNotations.

Section Arrays.
  Context {A : Type}.
  Lemma load_all : forall (l : list A) a, load (length l) (map Some l ++ a) = Ok l.
  Proof. induction l as [|x l IH]; intros a; cbn; auto. rewrite IH. auto. Qed.
  Lemma store_ok : forall (l : list A) a, length l <= length a -> exists a', store l a = Ok a' /\ length a' = length a /\ load (length l) a' = Ok l.
  Proof.
    intros l a H. unfold store. rewrite (proj2 (Nat.leb_le _ _)) by auto. eexists. split; [reflexivity|]. split; [|apply load_all].
    rewrite app_length, map_length, skipn_length. lia.
  Qed.
  Lemma new_length : forall k, length (@newArray A k) = k. Proof. intros. apply repeat_length. Qed.
  Lemma grow_length : forall n (v : list (option A)), n <= length (grow n v).
  Proof.
    intros n v. unfold grow. destruct (Nat.eqb_spec (length v) 0).
    - rewrite new_length. destruct (Nat.ltb_spec n n); [lia|]. rewrite new_length. lia.
    - destruct (Nat.ltb_spec (length v) n); [rewrite new_length; lia|auto].
  Qed.
End Arrays.

Lemma list_sum_app' : forall a b, list_sum (a ++ b) = list_sum a + list_sum b.
Proof. exact list_sum_app. Qed.
Lemma list_sum_le : forall A (f g : A -> nat) l, (forall x, In x l -> f x <= g x) -> list_sum (map f l) <= list_sum (map g l).
Proof. induction l as [|x l IH]; intros H; cbn; auto. pose proof (H x (or_introl eq_refl)). pose proof (IH (fun y h => H y (or_intror h))). unfold list_sum in *. lia. Qed.
Lemma list_sum_eq : forall A (f g : A -> nat) l, (forall x, In x l -> f x = g x) -> list_sum (map f l) = list_sum (map g l).
Proof. intros. f_equal. apply map_ext_in. auto. Qed.
Lemma list_sum_plus : forall A (f g : A -> nat) l, list_sum (map (fun x => f x + g x) l) = list_sum (map f l) + list_sum (map g l).
Proof. induction l as [|x l IH]; [reflexivity|]. cbn. unfold list_sum in *. rewrite IH. lia. Qed.
Lemma list_sum_const : forall A (k : nat) (l : list A), list_sum (map (fun _ => k) l) = length l * k.
Proof. induction l as [|x l IH]; [reflexivity|]. cbn. unfold list_sum in *. rewrite IH. lia. Qed.
Lemma list_sum_mult : forall A (k : nat) (f : A -> nat) l, list_sum (map (fun x => k * f x) l) = k * list_sum (map f l).
Proof. induction l as [|x l IH]; cbn; [lia|]. unfold list_sum in *. rewrite IH. lia. Qed.
Lemma list_sum_flat : forall A B (f : B -> nat) (g : A -> list B) l, list_sum (map f (flat_map g l)) = list_sum (map (fun x => list_sum (map f (g x))) l).
Proof. induction l as [|x l IH]; cbn; auto. rewrite map_app, list_sum_app', IH. reflexivity. Qed.
Lemma list_sum_swap : forall A B (f : A -> B -> nat) la lb, list_sum (map (fun a => list_sum (map (f a) lb)) la) = list_sum (map (fun b => list_sum (map (fun a => f a b) la)) lb).
Proof.
  intros A B f la lb. induction la as [|a la IH]; cbn.
  - symmetry. rewrite (list_sum_const _ 0). lia.
  - change (list_sum (map (f a) lb) + list_sum (map (fun a => list_sum (map (f a) lb)) la) = list_sum (map (fun b => f a b + list_sum (map (fun a => f a b) la)) lb)).
    rewrite IH. rewrite <- list_sum_plus. auto.
Qed.
Lemma list_sum_nth : forall A (d : A) (f : A -> nat) l, list_sum (map f l) = list_sum (map (fun i => f (nth i l d)) (seq 0 (length l))).
Proof.
  intros A d f l. rewrite <- (map_map (fun i => nth i l d) f). f_equal. f_equal. symmetry. apply nth_ext with (d := d) (d' := d); [rewrite map_length, seq_length; auto|].
  intros n Hn. rewrite map_length, seq_length in Hn. rewrite (nth_indep _ d (nth 0 l d)) by (rewrite map_length, seq_length; auto). rewrite (map_nth (fun i => nth i l d)), seq_nth by auto. auto.
Qed.

Section Sizes.
  Context {K : Type} {R : CRing K}.
  Notation sbm := (sbm K).

  (* the lengths of the arrays that fill writes *)
  Lemma fill_length : forall (f : nat * nat -> res (list (nat * K))) g l cp ci cx, (forall x, In x l -> exists col, f x = Ok col /\ length col <= g x) ->
    exists p i v, fill f l cp ci cx = Ok (p, i, v) /\ length v <= length cx + list_sum (map g l).
  Proof.
    intros f g. induction l as [|x l IH]; intros cp ci cx H; cbn [fill].
    - do 3 eexists. split; [reflexivity|]. cbn. lia.
    - destruct (H x (or_introl eq_refl)) as (col & E & L). rewrite E. cbn [bind]. destruct (IH (cp ++ [length cx]) (ci ++ map fst col) (cx ++ map snd col)) as (p & i & v & E2 & L2); [intros; apply H; right; auto|].
      exists p, i, v. split; auto. cbn [map]. unfold list_sum in *. cbn [fold_right]. rewrite app_length, map_length in L2. lia.
  Qed.
  (* equal row indices in every column: equal column pointers and row indices *)
  Lemma fill_same : forall (f f' : nat * nat -> res (list (nat * K))) l cp ci cx cx', length cx = length cx' ->
    (forall x, In x l -> exists col col', f x = Ok col /\ f' x = Ok col' /\ map fst col = map fst col') ->
    exists p i v v', fill f l cp ci cx = Ok (p, i, v) /\ fill f' l cp ci cx' = Ok (p, i, v') /\ length v = length v'.
  Proof.
    intros f f'. induction l as [|x l IH]; intros cp ci cx cx' E H; cbn [fill].
    - rewrite E. do 4 eexists. split; [reflexivity|]. split; [reflexivity|auto].
    - destruct (H x (or_introl eq_refl)) as (col & col' & E1 & E2 & E3). rewrite E1, E2. cbn [bind]. rewrite E, E3. apply IH; [|intros; apply H; right; auto].
      rewrite !app_length, !map_length, E. f_equal. rewrite <- (map_length fst col), E3, map_length. auto.
  Qed.

  Lemma down_length : forall (m : sbm) cnt i c, (forall r B, In (r, B) (nth i (s_cols m) []) -> cnt r <= bsize (s_rbi m) r) ->
    length (down m cnt i c) <= list_sum (map (fun e : nat * mat K => bsize (s_rbi m) (fst e)) (nth i (s_cols m) [])).
  Proof.
    intros m cnt i c H. unfold down. induction (nth i (s_cols m) []) as [|[r B] l IH]; cbn; auto. rewrite app_length, map_length, seq_length. specialize (H r B (or_introl eq_refl)) as H1.
    pose proof (IH (fun r' B' h => H r' B' (or_intror h))). unfold list_sum in *. cbn in *. lia.
  Qed.
  Lemma cells_sum : forall (m : sbm) (g : nat -> nat), list_sum (map (fun ic : nat * nat => g (fst ic)) (scalar_cols m)) = list_sum (map (fun i => bsize (s_cbi m) i * g i) (seq 0 (length (s_cols m)))).
  Proof.
    intros m g. unfold scalar_cols. rewrite list_sum_flat. apply list_sum_eq. intros i _. rewrite map_map. cbn [fst]. rewrite list_sum_const, seq_length. auto.
  Qed.
  Lemma in_cells : forall (m : sbm) i c, well_formed m -> In (i, c) (scalar_cols m) -> i < length (s_cbi m) /\ c < bsize (s_cbi m) i.
  Proof.
    intros m i c W H. unfold scalar_cols in H. apply in_flat_map in H. destruct H as (i' & H1 & H2). apply in_map_iff in H2. destruct H2 as (c' & E & H2). injection E as <- <-.
    apply in_seq in H1, H2. rewrite (wf_len _ W) in H1. lia.
  Qed.
  Lemma cnt_up_le : forall (m : sbm) i c r, s_cbi m = s_rbi m -> c < bsize (s_cbi m) i -> cnt_up m i c r <= bsize (s_rbi m) r.
  Proof. intros m i c r Sq H. unfold cnt_up. rewrite Sq in H. destruct (Nat.eqb_spec r i); subst; lia. Qed.

  Lemma upper_fits : forall m : sbm, proper m -> exists p i v, fillCCS m true = Ok (p, i, v) /\ length v <= nonZeros m.
  Proof.
    intros m (W & Sq & Ne & Po & U). unfold fillCCS.
    destruct (fill_length (ccs_column m true) (fun ic => list_sum (map (fun e : nat * mat K => bsize (s_rbi m) (fst e)) (nth (fst ic) (s_cols m) []))) (scalar_cols m) [] [] []) as (p & i & v & E & L).
    - intros [i c] H. apply in_cells in H; auto. destruct H as (H1 & H2). eexists. split; [apply column_true; auto|]. cbn [fst]. apply down_length. intros. apply cnt_up_le; auto.
    - exists p, i, v. split; auto. cbn [length plus] in L. rewrite (cells_sum m (fun i => list_sum (map (fun e : nat * mat K => bsize (s_rbi m) (fst e)) (nth i (s_cols m) [])))) in L.
      eapply Nat.le_trans; [exact L|]. unfold nonZeros. apply list_sum_le. intros b _. rewrite list_sum_mult. auto.
  Qed.

  Lemma across_length : forall (m : sbm) i c cB, length (across m i c cB) <= match get m i cB with Some _ => bsize (s_cbi m) cB | None => 0 end.
  Proof. intros m i c cB. unfold across. destruct (get m i cB); cbn; auto. rewrite map_length, seq_length. destruct (i =? cB); lia. Qed.
  Lemma flat_across : forall (m : sbm) i c l, length (flat_map (across m i c) l) <= list_sum (map (fun cB => match get m i cB with Some _ => bsize (s_cbi m) cB | None => 0 end) l).
  Proof. intros m i c l. induction l as [|b l IH]; cbn; auto. rewrite app_length. pose proof (across_length m i c b). unfold list_sum in *. lia. Qed.
  (* over sorted keys a sum over all positions is a sum over the keys *)
  Lemma key_sum : forall (f : nat -> nat) (c : bmap K) n, StronglySorted lt (map fst c) -> (forall r B, In (r, B) c -> r < n) ->
    list_sum (map (fun r => match find r c with Some _ => f r | None => 0 end) (seq 0 n)) = list_sum (map (fun e : nat * mat K => f (fst e)) c).
  Proof.
    intros f c n. induction c as [|[k B] c IH]; intros S H; cbn [find map fst].
    - rewrite list_sum_const. cbn. lia.
    - cbn [map fst] in S. apply StronglySorted_inv in S. destruct S as [S F]. change (list_sum (f k :: map (fun e : nat * mat K => f (fst e)) c)) with (f k + list_sum (map (fun e : nat * mat K => f (fst e)) c)).
      rewrite <- IH; auto; [|intros; eapply H; right; eauto].
      assert (Nk : find k c = None).
      { clear -F. rewrite Forall_forall in F. induction c as [|[k' B'] c IH]; cbn [find]; auto. destruct (Nat.eqb_spec k k') as [->|N]; [specialize (F k' (or_introl eq_refl)); lia|]. apply IH. intros x Hx. apply F. right. auto. }
      rewrite (list_sum_eq _ (fun r => match (if r =? k then Some B else find r c) with Some _ => f r | None => 0 end) (fun r => (if r =? k then f k else 0) + match find r c with Some _ => f r | None => 0 end)).
      2: { intros r _. destruct (Nat.eqb_spec r k) as [->|N]; [rewrite Nk|]; lia. }
      rewrite list_sum_plus. f_equal. specialize (H k B (or_introl eq_refl)). clear -H.
      assert (G : forall a n, a <= k < a + n -> list_sum (map (fun r => if r =? k then f k else 0) (seq a n)) = f k).
      { intros a m. revert a. induction m as [|m IH]; intros a Ha; [lia|]. cbn. destruct (Nat.eqb_spec a k) as [->|N].
        - rewrite (map_ext_in _ (fun _ => 0)); [|intros x Hx; apply in_seq in Hx; destruct (Nat.eqb_spec x k); lia]. fold (list_sum (map (fun _ => 0) (seq (S k) m))). rewrite (list_sum_const _ 0). lia.
        - fold (list_sum (map (fun r => if r =? k then f k else 0) (seq (S a) m))). rewrite IH by lia. auto. }
      apply G. lia.
  Qed.
  Lemma symm_fits : forall m : sbm, proper m -> exists p i v, fillUpper m = Ok (p, i, v) /\ length v <= nonZeros m * 2.
  Proof.
    intros m (W & Sq & Ne & Po & U). unfold fillUpper. set (C := length (s_cols m)).
    set (g1 := fun i => list_sum (map (fun e : nat * mat K => bsize (s_rbi m) (fst e)) (nth i (s_cols m) []))).
    set (g2 := fun i => list_sum (map (fun cB => match get m i cB with Some _ => bsize (s_cbi m) cB | None => 0 end) (seq 0 C))).
    destruct (fill_length (mirror_column m) (fun ic => g1 (fst ic) + g2 (fst ic)) (scalar_cols m) [] [] []) as (p & i & v & E & L).
    - intros [i c] H. apply in_cells in H; auto. destruct H as (H1 & H2). eexists. split; [apply mirror_ok; auto|]. cbn [fst snd]. rewrite app_length.
      pose proof (down_length m (cnt_up m i c) i c (fun r B _ => cnt_up_le m i c r Sq H2)) as D1. fold (g1 i) in D1.
      pose proof (flat_across m i c (seq i (C - i))) as D2. apply Nat.add_le_mono; auto. rewrite <- (wf_len _ W). fold C. eapply Nat.le_trans; [exact D2|]. unfold g2.
      replace (seq 0 C) with (seq 0 i ++ seq i (C - i)) by (rewrite <- seq_app; f_equal; unfold C; rewrite (wf_len _ W); lia). rewrite map_app, list_sum_app'. lia.
    - exists p, i, v. split; auto. cbn [length plus] in L. rewrite (cells_sum m (fun i => g1 i + g2 i)) in L. fold C in L. eapply Nat.le_trans; [exact L|].
      rewrite (list_sum_eq _ _ (fun i => bsize (s_cbi m) i * g1 i + bsize (s_cbi m) i * g2 i)) by (intros; lia). rewrite list_sum_plus.
      assert (E1 : list_sum (map (fun i => bsize (s_cbi m) i * g1 i) (seq 0 C)) = nonZeros m).
      { unfold nonZeros. apply list_sum_eq. intros b _. unfold g1. rewrite list_sum_mult. auto. }
      assert (E2 : list_sum (map (fun i => bsize (s_cbi m) i * g2 i) (seq 0 C)) = nonZeros m).
      { unfold g2. rewrite (list_sum_eq _ _ (fun i => list_sum (map (fun cB => match get m i cB with Some _ => bsize (s_cbi m) cB * bsize (s_rbi m) i | None => 0 end) (seq 0 C)))).
        2: { intros b _. rewrite <- list_sum_mult. apply list_sum_eq. intros cB _. destruct (get m b cB); rewrite Sq; lia. }
        rewrite list_sum_swap. unfold nonZeros. fold C. apply list_sum_eq. intros cB _. unfold get.
        rewrite (key_sum (fun r => bsize (s_cbi m) cB * bsize (s_rbi m) r) (nth cB (s_cols m) []) C); auto; [apply W|]. intros r B Hr. unfold C. rewrite (wf_len _ W), Sq. eapply wf_range; eauto. }
      lia.
  Qed.

  (** ** the same pattern *)
  Lemma same_keys : forall (m m' : sbm) i, same_pattern m m' -> map fst (nth i (s_cols m) []) = map fst (nth i (s_cols m') []).
  Proof. intros m m' i (_ & _ & E). pose proof (map_nth (map fst) (s_cols m) [] i) as E1. pose proof (map_nth (map fst) (s_cols m') [] i) as E2. cbn [map] in E1, E2. etransitivity; [symmetry; exact E1|]. etransitivity; [|exact E2]. f_equal. exact E. Qed.
  Lemma same_length : forall (m m' : sbm), same_pattern m m' -> length (s_cols m) = length (s_cols m').
  Proof. intros m m' (_ & _ & E). apply (f_equal (@length _)) in E. rewrite !map_length in E. exact E. Qed.
  Lemma same_cells : forall (m m' : sbm), same_pattern m m' -> scalar_cols m = scalar_cols m'.
  Proof. intros m m' H. unfold scalar_cols. rewrite (same_length m m' H). destruct H as (_ & -> & _). auto. Qed.
  Lemma same_down : forall (m m' : sbm) i c, same_pattern m m' -> map fst (down m (cnt_up m i c) i c) = map fst (down m' (cnt_up m' i c) i c).
  Proof.
    intros m m' i c H. pose proof (same_keys m m' i H) as E. destruct H as (H1 & _). unfold down, cnt_up. rewrite H1. revert E. generalize (nth i (s_cols m) []) (nth i (s_cols m') []).
    induction b as [|[r B] l IH]; intros [|[r' B'] l'] E; cbn in E; try discriminate E; cbn; auto. injection E as -> E. rewrite !map_app, !map_map. cbn [fst]. rewrite (IH _ E). auto.
  Qed.
  Lemma same_find : forall r (c c' : bmap K), map fst c = map fst c' -> match find r c, find r c' with Some _, Some _ | None, None => True | _, _ => False end.
  Proof.
    intros r. induction c as [|[k B] c IH]; intros [|[k' B'] c'] E; cbn in E; try discriminate E; cbn; auto. injection E as -> E. destruct (r =? k'); auto. apply IH; auto.
  Qed.
  Lemma same_across : forall (m m' : sbm) i c cB, same_pattern m m' -> map fst (across m i c cB) = map fst (across m' i c cB).
  Proof.
    intros m m' i c cB H. pose proof (same_find i _ _ (same_keys m m' cB H)) as F. destruct H as (_ & H2 & _). unfold across, get. rewrite H2.
    destruct (find i (nth cB (s_cols m) [])), (find i (nth cB (s_cols m') [])); try destruct F; auto. rewrite !map_map. auto.
  Qed.
  Lemma same_upper : forall (m m' : sbm) p i v, proper m -> proper m' -> same_pattern m m' -> fillCCS m true = Ok (p, i, v) -> exists v', fillCCS m' true = Ok (p, i, v') /\ length v' = length v.
  Proof.
    intros m m' p i v (W & Sq & _ & Po & _) (W' & Sq' & _ & Po' & _) H E. unfold fillCCS in *. rewrite <- (same_cells m m' H).
    destruct (fill_same (ccs_column m true) (ccs_column m' true) (scalar_cols m) [] [] [] []) as (p1 & i1 & v1 & v2 & E1 & E2 & L); auto.
    - intros [b c] Hb. pose proof Hb as Hb'. rewrite (same_cells m m' H) in Hb'. apply in_cells in Hb, Hb'; auto. rewrite !column_true by (auto; apply Hb || apply Hb'). do 2 eexists. split; [reflexivity|]. split; [reflexivity|].
      apply same_down; auto.
    - rewrite E1 in E. injection E as -> -> ->. exists v2. auto.
  Qed.
  Lemma same_symm : forall (m m' : sbm) p i v, proper m -> proper m' -> same_pattern m m' -> fillUpper m = Ok (p, i, v) -> exists v', fillUpper m' = Ok (p, i, v') /\ length v' = length v.
  Proof.
    intros m m' p i v (W & Sq & _ & Po & _) (W' & Sq' & _ & Po' & _) H E. unfold fillUpper in *. rewrite <- (same_cells m m' H).
    destruct (fill_same (mirror_column m) (mirror_column m') (scalar_cols m) [] [] [] []) as (p1 & i1 & v1 & v2 & E1 & E2 & L); auto.
    - intros [b c] Hb. pose proof Hb as Hb'. rewrite (same_cells m m' H) in Hb'. apply in_cells in Hb, Hb'; auto. rewrite !mirror_ok by (auto; apply Hb || apply Hb'). do 2 eexists. split; [reflexivity|]. split; [reflexivity|].
      cbn [fst snd]. rewrite !map_app. f_equal; [apply same_down; auto|]. rewrite <- (wf_len _ W), <- (wf_len _ W'), (same_length m m' H). generalize (seq b (length (s_cols m') - b)). induction l as [|y l IH]; cbn; auto. rewrite !map_app, IH. f_equal. apply same_across; auto.
    - rewrite E1 in E. injection E as -> -> ->. exists v2. auto.
  Qed.
End Sizes.
