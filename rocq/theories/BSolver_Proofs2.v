(** * Block linear solvers: filling the arrays, orderings *)
From Coq Require Import Arith Lia List Bool Sorting.Sorted Sorting.Permutation.
From Verif Require Import Lib_Ring Lib_Res CCM_Model SBM_Model SBM_Spec SBM_Proofs SBM_Proofs2 SBM_Proofs3 SBM_Proofs4 SBM_Proofs5 Cov_Model Cov_Spec BSolver_Model BSolver_Spec BSolver_Proofs.
From Verif Require CCM_Spec.
Import ListNotations.

(** ** permutations *)
Lemma perm_list : forall n q, list_perm n q <-> Permutation q (seq 0 n).
Proof.
  intros n q. split.
  - intros (L & P1 & P2). apply NoDup_Permutation_bis.
    + apply (NoDup_nth q 0). rewrite L. intros i j Hi Hj E. apply P2; auto.
    + rewrite seq_length. lia.
    + intros x Hx. apply (In_nth _ _ 0) in Hx. destruct Hx as (k & Hk & <-). apply in_seq. rewrite L in Hk. specialize (P1 k Hk). lia.
  - intros P. pose proof (Permutation_length P) as L. rewrite seq_length in L. split; auto. split.
    + intros i Hi. assert (H : In (nth i q 0) (seq 0 n)) by (eapply Permutation_in; [exact P|]; apply nth_In; lia). apply in_seq in H. lia.
    + intros i j Hi Hj E. assert (D : NoDup q) by (eapply Permutation_NoDup; [apply Permutation_sym; exact P|apply seq_NoDup]). eapply (proj1 (NoDup_nth q 0)); eauto; lia.
Qed.
Lemma tiles_seq : forall l n, layout_ok l -> n <= length l -> flat_map (fun p => map (fun j => base l p + j) (seq 0 (bsize l p))) (seq 0 n) = seq 0 (base l n).
Proof.
  intros l n Lo. induction n as [|n IH]; intros H; [reflexivity|]. rewrite seq_S, flat_map_app, IH by lia. cbn [plus flat_map]. rewrite app_nil_r, base_S by (auto; lia). rewrite seq_app. f_equal. cbn [plus].
  generalize (base l n) (bsize l n). intros a k. clear. assert (H : forall s, map (fun j => a + j) (seq s k) = seq (a + s) k) by (induction k as [|k IH]; intros s; cbn; auto; f_equal; rewrite IH; f_equal; lia). rewrite H, Nat.add_0_r. auto.
Qed.
Lemma blow_up_perm : forall K (m : sbm K) P, well_formed m -> list_perm (length (s_cbi m)) P -> exists q, blow_up m P = Ok q /\ list_perm (total (s_cbi m)) q.
Proof.
  intros K m P W H. unfold blow_up. set (g := fun p => map (fun j => base (s_cbi m) p + j) (seq 0 (bsize (s_cbi m) p))). exists (flat_map g P). split.
  - apply pieces_ok. intros p Hp. apply perm_list in H. assert (Hs : In p (seq 0 (length (s_cbi m)))) by (eapply Permutation_in; eauto). apply in_seq in Hs. rewrite (proj2 (Nat.ltb_lt _ _)) by lia. auto.
  - apply perm_list in H. apply perm_list. rewrite total_base. rewrite <- (tiles_seq (s_cbi m) (length (s_cbi m))) by (auto; apply W). apply Permutation_flat_map. auto.
Qed.
Lemma load_somes : forall A (d : A) (a : list (option A)) (f : nat -> A), (forall k, k < length a -> nth k a None = Some (f k)) -> exists l, load (length a) a = Ok l /\ length l = length a /\ forall k, k < length a -> nth k l d = f k.
Proof.
  intros A d. induction a as [|o a IH]; intros f H; cbn [length load].
  - exists []. split; auto. split; auto. intros; lia.
  - pose proof (H 0 ltac:(cbn; lia)) as H0. cbn in H0. subst o. destruct (IH (fun k => f (S k))) as (l & E & L & N); [intros k Hk; apply (H (S k)); cbn; lia|].
    rewrite E. cbn [bind]. exists (f 0 :: l). split; auto. split; [cbn; auto|]. intros [|k] Hk; cbn; auto. apply N. lia.
Qed.
Lemma invert_ok : forall n p, list_perm n p -> exists q, invert n p = Ok q /\ inverse_perm n p q.
Proof.
  intros n p (L & P1 & P2). unfold invert.
  assert (G : forall k, k <= n -> exists a, fold_left (fun a i => do a <- a; do k <- rd p i; if k <? length a then Ok (upd a k (Some i)) else UB) (seq 0 k) (Ok (newArray n)) = Ok a /\
     length a = n /\ forall j, j < k -> nth (nth j p 0) a None = Some j).
  { induction k as [|k IH]; intros Hk.
    - exists (newArray n). split; auto. split; [apply new_length|]. intros; lia.
    - destruct IH as (a & E & La & Ha); [lia|]. rewrite seq_S, fold_left_app, E. cbn [plus fold_left bind]. unfold rd. rewrite (nth_error_nth' p 0) by lia. cbn [bind]. specialize (P1 k ltac:(lia)) as B.
      rewrite (proj2 (Nat.ltb_lt _ _)) by lia. eexists. split; [reflexivity|]. split; [rewrite upd_length; auto|]. intros j Hj. rewrite nth_upd by lia. rewrite Nat.eqb_sym. destruct (Nat.eqb_spec (nth j p 0) (nth k p 0)) as [Ej|Nj].
      + apply P2 in Ej; try lia. subst. rewrite ?Nat.eqb_refl. auto.
      + apply Ha. destruct (Nat.eq_dec j k); [subst; congruence|lia]. }
  destruct (G n (le_n _)) as (a & E & La & Ha). rewrite E. cbn [bind].
  assert (S : forall r, r < n -> exists k, k < n /\ nth k p 0 = r) by (intros r Hr; apply (perm_surj n (fun k => nth k p 0)); auto; split; auto).
  destruct (load_somes _ 0 a (fun r => match nth r a None with Some k => k | None => 0 end)) as (l & E2 & L2 & N2).
  { intros r Hr. rewrite La in Hr. destruct (S r Hr) as (k & Hk & <-). rewrite Ha by auto. auto. }
  rewrite La in *. exists l. split; auto. split; auto. intros k Hk. rewrite N2 by auto. rewrite Ha by auto. auto.
Qed.
Lemma inverse_is_perm : forall n p q, list_perm n p -> inverse_perm n p q -> permutation n (Some q).
Proof.
  intros n p q (L & P1 & P2) (L2 & I2). split; auto. assert (S : forall r, r < n -> exists k, k < n /\ nth k p 0 = r) by (intros r Hr; apply (perm_surj n (fun k => nth k p 0)); auto; split; auto).
  split; cbn beta iota delta [position].
  - intros r Hr. destruct (S r Hr) as (k & Hk & <-). rewrite I2; auto.
  - intros r r' Hr Hr' E. destruct (S r Hr) as (k & Hk & <-). destruct (S r' Hr') as (k' & Hk' & <-). rewrite !I2 in E by auto. subst. auto.
Qed.

Section Fill.
  Context {K : Type} {R : CRing K}.
  Notation sbm := (sbm K).

  Definition buf_ok (s : buf K) : Prop := (0 < b_alloc s -> length (b_p s) = b_alloc s + 1) /\ length (b_i s) = b_nzmax s /\ length (b_x s) = b_nzmax s.
  (* the arrays hold this matrix *)
  Definition holds (s : buf K) (n : nat) (p i : list nat) (x : list K) : Prop :=
    b_ncol s = n /\ b_nrow s = n /\ n <= b_alloc s /\ nth n p 0 = length i /\ length x = length i /\
    load (n + 1) (b_p s) = Ok p /\ load (length i) (b_i s) = Ok i /\ load (length i) (b_x s) = Ok x /\ length i <= length (b_x s).
  Lemma buf_new_ok : buf_ok (@buf_new K). Proof. split; [cbn; lia|]. split; auto. Qed.
  Lemma holds_view : forall s n p i x, holds s n p i x -> view s = Ok (p, i, x) /\ view_pattern s = Ok (p, i).
  Proof. intros s n p i x (E1 & E2 & _ & N & _ & Lp & Li & Lx & _). unfold view, view_pattern. rewrite E1, Lp. cbn [bind]. rewrite N, Li. cbn [bind]. rewrite Lx. auto. Qed.

  Section Ext.
    Variables (full : sbm -> res (list nat * list nat * list K)) (values : sbm -> res (list K)) (need : sbm -> nat).
    Lemma fill_whole : forall m s n p i x, buf_ok s -> 0 < n -> total (s_cbi m) = n -> total (s_rbi m) = n -> full m = Ok (p, i, x) -> length p = n + 1 -> nth n p 0 = length i -> length x = length i ->
      length x <= need m -> exists s', fillExt full values need m false s = Ok s' /\ buf_ok s' /\ holds s' n p i x.
    Proof.
      intros m s n p i x (B1 & B2 & B3) Hn Hc Hr E Lp Ln Lx Hneed. unfold fillExt. rewrite Hc, Hr, E. cbn [bind fst snd].
      set (s1 := buf_alloc n (need m) false s).
      assert (A1 : n <= b_alloc s1 /\ length (b_p s1) = b_alloc s1 + 1).
      { unfold s1, buf_alloc. cbn [b_alloc b_p]. destruct (Nat.ltb_spec (b_alloc s) n) as [H|H].
        - rewrite new_length. destruct (b_alloc s =? 0); split; lia.
        - split; auto. apply B1. lia. }
      assert (A2 : need m <= b_nzmax s1 /\ length (b_i s1) = b_nzmax s1 /\ length (b_x s1) = b_nzmax s1).
      { unfold s1, buf_alloc. cbn [negb andb b_nzmax b_i b_x]. destruct (Nat.ltb_spec (b_nzmax s) (need m)) as [H|H].
        - rewrite !new_length. destruct (b_nzmax s =? 0); split; lia.
        - split; auto. }
      destruct (store_ok p (b_p s1)) as (p' & Ep & Lp' & Gp); [lia|]. destruct (store_ok i (b_i s1)) as (i' & Ei & Li' & Gi); [lia|]. destruct (store_ok x (b_x s1)) as (x' & Ex & Lx' & Gx); [lia|].
      rewrite Ep, Ei, Ex. cbn [bind]. eexists. split; [reflexivity|]. unfold buf_ok, holds. cbn [b_alloc b_nzmax b_nrow b_ncol b_p b_i b_x]. split; [split; [|split]; lia|].
      rewrite Lp in Gp. rewrite Lx in Gx. split; auto. split; auto. split; [apply A1|]. split; auto. split; auto. split; auto. split; auto. split; auto. lia.
    Qed.
    Lemma fill_new_values : forall m s n p i x0 x, buf_ok s -> holds s n p i x0 -> total (s_cbi m) = n -> total (s_rbi m) = n -> values m = Ok x -> length x = length i ->
      exists s', fillExt full values need m true s = Ok s' /\ buf_ok s' /\ holds s' n p i x.
    Proof.
      intros m s n p i x0 x (B1 & B2 & B3) (H1 & H2 & H3 & H4 & H5 & H6 & H7 & H8 & H9) Hc Hr E L. unfold fillExt. rewrite Hc, Hr, E. cbn [bind].
      assert (Es : buf_alloc n (need m) true s = s).
      { unfold buf_alloc. cbn [negb andb]. destruct (Nat.ltb_spec (b_alloc s) n); [lia|]. destruct s. auto. }
      rewrite Es. destruct (store_ok x (b_x s)) as (x' & Ex & Lx' & Gx); [lia|]. rewrite Ex. cbn [bind]. eexists. split; [reflexivity|]. unfold buf_ok, holds. cbn [b_alloc b_nzmax b_nrow b_ncol b_p b_i b_x].
      rewrite L in Gx. split; [split; auto; split; lia|]. split; auto. split; auto. split; auto. split; auto. split; auto. split; auto. split; auto. split; auto. lia.
    Qed.
  End Ext.

  Lemma ccs_sizes : forall n A p i x, is_ccs n n A (p, i, x) -> length p = n + 1 /\ nth n p 0 = length i /\ length x = length i.
  Proof. intros n A p i x (W & _). destruct W as [W1 W2 W3 W4 _ _ _]. cbn in *. unfold CCM_Spec.colptr in *. cbn in *. split; auto. split; lia. Qed.
  Lemma proper_dim : forall m : sbm, proper m -> 0 < dim m /\ total (s_cbi m) = dim m.
  Proof.
    intros m (W & Sq & Ne & Po & _). unfold dim. rewrite Sq. split; auto. rewrite total_base. destruct (s_rbi m) as [|a l] eqn:E; [congruence|].
    assert (H : base (a :: l) 1 <= base (a :: l) (length (a :: l))) by (apply base_mono; [rewrite <- E; apply W|cbn; lia|lia]).
    specialize (Po 0 ltac:(cbn; lia)). unfold bsize in Po. cbn in Po, H |- *. lia.
  Qed.
  Lemma upper_filled : forall (m : sbm) A, proper m -> stands_for m A -> exists p i x, fillCCS m true = Ok (p, i, x) /\ fillCCS_values m true = Ok x /\ is_ccs (dim m) (dim m) (triu A) (p, i, x) /\ length x <= nonZeros m.
  Proof.
    intros m A Pr St. destruct (upper_fits m Pr) as (p & i & x & E & L). pose proof Pr as (W & Sq & Ne & Po & U). destruct (upper_both m A W Sq Po U St) as ((q & E2 & C & V) & _). rewrite E in E2. injection E2 as <-.
    exists p, i, x. split; auto. split; auto. split; auto. unfold dim. rewrite Sq in C. auto.
  Qed.
  Lemma symm_filled : forall (m : sbm) A, proper m -> stands_for m A -> exists p i x, fillUpper m = Ok (p, i, x) /\ fillUpper_values m = Ok x /\ is_ccs (dim m) (dim m) (symm A) (p, i, x) /\ length x <= nonZeros m * 2.
  Proof.
    intros m A Pr St. destruct (symm_fits m Pr) as (p & i & x & E & L). pose proof Pr as (W & Sq & Ne & Po & U). destruct (upper_both m A W Sq Po U St) as (_ & (q & E2 & C & V)). rewrite E in E2. injection E2 as <-.
    exists p, i, x. split; auto. split; auto. split; auto. unfold dim. rewrite Sq in C. auto.
  Qed.

  (** ** the block structure *)
  Definition ms_ok (s : mstruct) : Prop := ms_n s = 0 \/ (length (ms_Ap s) = ms_maxN s + 1 /\ length (ms_Aii s) = ms_maxNz s).
  Lemma ms_alloc_ok : forall n nz s, ms_ok s -> ms_ok (ms_alloc n nz s) /\ ms_n (ms_alloc n nz s) = n /\ n + 1 <= length (ms_Ap (ms_alloc n nz s)) /\ nz <= length (ms_Aii (ms_alloc n nz s)).
  Proof.
    intros n nz s H. unfold ms_alloc. destruct (Nat.eqb_spec (ms_n s) 0) as [E|E].
    - unfold ms_ok. cbn [ms_n ms_maxN ms_maxNz ms_Ap ms_Aii]. rewrite !new_length. split; [right; split; lia|]. split; auto.
    - destruct H as [H|(H1 & H2)]; [lia|]. unfold ms_ok. cbn [ms_n ms_maxN ms_maxNz ms_Ap ms_Aii]. destruct (Nat.ltb_spec (ms_maxN s) n), (Nat.ltb_spec (ms_maxNz s) nz); rewrite ?new_length; (split; [right; lia|lia]).
  Qed.
  Lemma filter_le : forall A (f : A -> bool) l, length (filter f l) <= length l.
  Proof. induction l as [|x l IH]; cbn; auto. destruct (f x); cbn; lia. Qed.
  Lemma running_last : forall l acc, nth (length l) (acc :: running acc l) 0 = acc + list_sum l.
  Proof. induction l as [|x l IH]; intros acc; cbn [running length]; [cbn; lia|]. change (nth (S (length l)) (acc :: (acc + x) :: running (acc + x) l) 0) with (nth (length l) ((acc + x) :: running (acc + x) l) 0). rewrite IH. change (list_sum (x :: l)) with (x + list_sum l). lia. Qed.
  Lemma running_step : forall l acc i, i < length l -> nth i (acc :: running acc l) 0 <= nth (S i) (acc :: running acc l) 0 <= acc + list_sum l.
  Proof.
    induction l as [|x l IH]; intros acc i H; [cbn in H; lia|]. destruct i as [|i].
    - cbn [nth running]. change (list_sum (x :: l)) with (x + list_sum l). lia.
    - specialize (IH (acc + x) i ltac:(cbn in H; lia)). cbn [running]. change (list_sum (x :: l)) with (x + list_sum l).
      change (nth (S i) (acc :: (acc + x) :: running (acc + x) l) 0) with (nth i ((acc + x) :: running (acc + x) l) 0). change (nth (S (S i)) (acc :: (acc + x) :: running (acc + x) l) 0) with (nth (S i) ((acc + x) :: running (acc + x) l) 0). lia.
  Qed.
  Lemma structure_pattern : forall m : sbm, well_formed m -> let x := fillBlockStructure m in block_pattern (length (s_cbi m)) (fst x) (snd x) /\ length (snd x) <= nonZeroBlocks m.
  Proof.
    intros m W x. set (cols := map (fun i => filter (fun r => r <=? i) (map fst (nth i (s_cols m) []))) (seq 0 (length (s_cols m)))).
    assert (E1 : fst x = 0 :: running 0 (map (@length nat) cols)) by reflexivity. assert (E2 : snd x = concat cols) by reflexivity.
    assert (Lc : length cols = length (s_cbi m)) by (unfold cols; rewrite map_length, seq_length, (wf_len _ W); auto).
    assert (Ls : list_sum (map (@length nat) cols) = length (concat cols)).
    { clear. generalize cols. induction cols0 as [|a l IH]; cbn; auto. rewrite app_length, <- IH. auto. }
    split.
    - unfold block_pattern. rewrite E1, E2. split; [cbn [length]; rewrite running_length, map_length; lia|]. split; auto. rewrite <- Lc. pose proof (running_last (map (@length nat) cols) 0) as RL. rewrite map_length in RL. split; [rewrite RL; cbn [plus]; auto|].
      intros i Hi. split; [rewrite <- Ls; apply (running_step (map (@length nat) cols) 0); rewrite map_length; auto|].
      pose proof (structure_ok m i W ltac:(lia)) as (S1 & S2). cbv zeta in *. fold x in S1, S2. rewrite E1, E2 in S1, S2. split; auto. intros r Hr. apply S2 in Hr. apply Hr.
    - rewrite E2, <- Ls. unfold nonZeroBlocks. rewrite (list_sum_nth _ [] (@length _) (s_cols m)). unfold cols. rewrite map_map. apply list_sum_le. intros i _. eapply Nat.le_trans; [apply filter_le|]. rewrite map_length. auto.
  Qed.
  Lemma fillStructure_ok : forall (m : sbm) s, well_formed m -> ms_ok s -> exists s' Ap Aii, fillStructure m s = Ok s' /\ ms_ok s' /\ ms_n s' = length (s_cbi m) /\
    load (ms_n s' + 1) (ms_Ap s') = Ok Ap /\ load (nth (ms_n s') Ap 0) (ms_Aii s') = Ok Aii /\ block_pattern (length (s_cbi m)) Ap Aii.
  Proof.
    intros m s W H. destruct (structure_pattern m W) as (BP & LN). cbv zeta in *. destruct (ms_alloc_ok (length (s_cbi m)) (nonZeroBlocks m) s H) as (M1 & M2 & M3 & M4). unfold fillStructure.
    set (s1 := ms_alloc _ _ s) in *. destruct (fillBlockStructure m) as [Ap Aii]. cbn [fst snd] in *. pose proof BP as (B1 & B2 & B3 & _).
    destruct (store_ok Ap (ms_Ap s1)) as (a & Ea & La & Ga); [lia|]. destruct (store_ok Aii (ms_Aii s1)) as (b & Eb & Lb & Gb); [lia|]. rewrite Ea, Eb. cbn [bind].
    eexists. exists Ap, Aii. split; [reflexivity|]. unfold ms_ok. cbn [ms_n ms_maxN ms_maxNz ms_Ap ms_Aii]. rewrite La, Lb. split; [exact M1|]. split; auto. rewrite M2. split; [rewrite <- B1; auto|]. split; [rewrite B3; auto|auto].
  Qed.
End Fill.
