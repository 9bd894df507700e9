(** * Proofs about the column layout *)
From Coq Require Import Arith Lia List ZArith Bool.
From Verif Require Import Lib_Ring Lib_Res DesignVar_Base Layout_Model Layout_Spec.
Import ListNotations.

Section L.
Context {K : Type}.

Lemma dset_same : forall (h : dvheap K) i d, dset h i d i = d.
Proof. intros. unfold dset. rewrite Nat.eqb_refl. auto. Qed.
Lemma dset_other : forall (h : dvheap K) i j d, j <> i -> dset h i d j = h j.
Proof. intros. unfold dset. destruct (Nat.eqb_spec j i); congruence. Qed.

Lemma assign_other : forall act i n (h : dvheap K) v, ~ In v act -> fst (assign_columns i n act h) v = h v.
Proof.
  induction act as [|w act IH]; intros i n h v H; cbn [assign_columns]; auto.
  cbn in H. rewrite IH by tauto. rewrite !dset_other by intuition. auto.
Qed.

(** attributes that are never changed *)
Lemma assign_attr : forall act i n (h : dvheap K) v, let d := fst (assign_columns i n act h) v in
  dv_id d = dv_id (h v) /\ dv_active d = dv_active (h v) /\ dv_dim d = dv_dim (h v) /\ dv_scaling d = dv_scaling (h v).
Proof.
  induction act as [|w act IH]; intros i n h v; cbn [assign_columns fst]; auto.
  cbn zeta. specialize (IH (S i) (n + Z.of_nat (dv_dim (dset (dset h w (setBlockIndex (Z.of_nat i) (h w))) w
      (setColumnBase n (dset h w (setBlockIndex (Z.of_nat i) (h w)) w)) w)))%Z
      (dset (dset h w (setBlockIndex (Z.of_nat i) (h w))) w
      (setColumnBase n (dset h w (setBlockIndex (Z.of_nat i) (h w)) w))) v). cbn zeta in IH.
  destruct IH as (A & B & C & D). rewrite A, B, C, D. unfold dset, setColumnBase, setBlockIndex.
  destruct (Nat.eqb_spec v w); cbn; auto. subst. rewrite Nat.eqb_refl. cbn. auto.
Qed.

Lemma assign_at : forall act i n (h : dvheap K) k v, NoDup act -> nth_error act k = Some v ->
  let d := fst (assign_columns i n act h) v in
  dv_block d = Z.of_nat (i + k) /\ dv_col d = (n + Z.of_nat (base_of (fun w => dv_dim (h w)) act k))%Z.
Proof.
  induction act as [|w act IH]; intros i n h k v HN Hk; [destruct k; discriminate|].
  inversion HN as [|? ? Hn HN']; subst. destruct k as [|k]; cbn in Hk.
  - injection Hk as ->. cbn zeta. cbn [assign_columns]. rewrite assign_other by auto. rewrite !dset_same.
    cbn. split; f_equal; lia.
  - cbn zeta. cbn [assign_columns]. destruct (IH (S i) (n + Z.of_nat (dv_dim (dset (dset h w (setBlockIndex (Z.of_nat i) (h w))) w
      (setColumnBase n (dset h w (setBlockIndex (Z.of_nat i) (h w)) w)) w)))%Z
      (dset (dset h w (setBlockIndex (Z.of_nat i) (h w))) w
      (setColumnBase n (dset h w (setBlockIndex (Z.of_nat i) (h w)) w))) k v HN' Hk) as [A B].
    rewrite A, B. split; [f_equal; lia|]. rewrite !dset_same. cbn [setColumnBase setBlockIndex dv_dim].
    unfold base_of. cbn [firstn map fold_right].
    replace (map (fun x => dv_dim (dset (dset h w (setBlockIndex (Z.of_nat i) (h w))) w
              (setColumnBase n (setBlockIndex (Z.of_nat i) (h w))) x)) (firstn k act))
       with (map (fun x => dv_dim (h x)) (firstn k act)); [lia|].
    apply map_ext_in. intros x Hx. unfold dset. destruct (Nat.eqb_spec x w); subst; auto.
Qed.

Lemma assign_num : forall act i n (h : dvheap K),
  snd (assign_columns i n act h) = (n + Z.of_nat (base_of (fun w => dv_dim (h w)) act (length act)))%Z.
Proof.
  induction act as [|w act IH]; intros i n h; cbn [assign_columns snd].
  - unfold base_of. cbn. lia.
  - rewrite IH. rewrite !dset_same. cbn [setColumnBase setBlockIndex dv_dim]. unfold base_of. cbn [length firstn map fold_right].
    replace (map (fun x => dv_dim (dset (dset h w (setBlockIndex (Z.of_nat i) (h w))) w
              (setColumnBase n (setBlockIndex (Z.of_nat i) (h w))) x)) (firstn (length act) act))
       with (map (fun x => dv_dim (h x)) (firstn (length act) act)); [lia|].
    apply map_ext_in. intros x Hx. unfold dset. destruct (Nat.eqb_spec x w); subst; auto.
Qed.

Lemma base_of_S : forall dim l k v, nth_error l k = Some v -> base_of dim l (S k) = base_of dim l k + dim v.
Proof.
  intros dim. unfold base_of. induction l as [|w l IH]; intros [|k] v H; try discriminate.
  - cbn in H. injection H as ->. cbn. lia.
  - cbn in H. specialize (IH k v H). cbn [firstn map fold_right] in *. lia.
Qed.
Lemma base_of_mono : forall dim l j k, k <= j -> base_of dim l k <= base_of dim l j.
Proof.
  intros dim l. induction j as [|j IH]; intros k H; [replace k with 0 by lia; auto|].
  destruct (Nat.eq_dec k (S j)); [subst; auto|]. etransitivity; [apply IH; lia|].
  destruct (nth_error l j) as [v|] eqn:E; [rewrite (base_of_S _ _ _ _ E); lia|].
  apply nth_error_None in E. unfold base_of. rewrite !firstn_all2 by lia. auto.
Qed.

(** every column belongs to exactly one variable *)
Lemma columns_tile : forall dim l c, c < base_of dim l (length l) ->
  exists! k, exists v, nth_error l k = Some v /\ base_of dim l k <= c < base_of dim l k + dim v.
Proof.
  intros dim l c Hc.
  assert (E : exists k v, nth_error l k = Some v /\ base_of dim l k <= c < base_of dim l k + dim v).
  { assert (G : forall n, n <= length l -> c < base_of dim l n -> exists k v, nth_error l k = Some v /\ base_of dim l k <= c < base_of dim l k + dim v).
    { induction n as [|n IH]; intros Hn H; [cbn in H; lia|].
      destruct (Nat.lt_ge_cases c (base_of dim l n)); [apply IH; auto; lia|].
      destruct (nth_error l n) as [v|] eqn:E; [|apply nth_error_None in E; lia].
      exists n, v. rewrite (base_of_S _ _ _ _ E) in H. auto. }
    apply (G (length l)); auto. }
  destruct E as (k & v & E1 & E2). exists k. split; [eauto|].
  intros k' (v' & E1' & E2').
  destruct (Nat.lt_trichotomy k k') as [H|[H|H]]; auto; exfalso.
  - pose proof (base_of_mono dim l k' (S k) H). rewrite (base_of_S _ _ _ _ E1) in H0. lia.
  - pose proof (base_of_mono dim l k (S k') H). rewrite (base_of_S _ _ _ _ E1') in H0. lia.
Qed.

Lemma assign_rows_nth : forall dims b k, k < length dims -> nth k (assign_rows b dims) 0 = b + fold_right plus 0 (firstn k dims).
Proof.
  induction dims as [|d dims IH]; intros b k Hk; cbn in Hk; [lia|]. destruct k; cbn; [lia|]. rewrite IH by lia. lia.
Qed.

Lemma initialize_ok : forall (h : dvheap K) dvs numNS dimsS, NoDup dvs ->
  let act := filter (fun i => dv_active (h i)) dvs in
  let dim v := dv_dim (h v) in
  match initialize h dvs numNS dimsS with
  | Ok p =>
      pm_dvs p = act /\ act <> [] /\ (numNS <> 0 \/ dimsS <> []) /\
      (forall k v, nth_error act k = Some v ->
         dv_block (pm_heap p v) = Z.of_nat k /\ dv_col (pm_heap p v) = Z.of_nat (base_of dim act k)) /\
      pm_numOpt p = Z.of_nat (base_of dim act (length act)) /\
      (forall v, ~ In v act -> pm_heap p v = h v) /\
      agree_attr h (pm_heap p) /\
      (forall k, k < length dimsS -> nth k (pm_rows p) 0 = fold_right plus 0 (firstn k dimsS)) /\
      pm_numErr p = numNS + length dimsS
  | Throw => act = [] \/ (numNS = 0 /\ dimsS = [])
  | UB => False
  end.
Proof.
  intros h dvs numNS dimsS HN act dim. unfold initialize. fold (active_dvs h dvs). change (active_dvs h dvs) with act.
  destruct (Nat.eqb_spec (length act) 0) as [E|E].
  - left. destruct act; auto; discriminate.
  - destruct (assign_columns 0 0 act h) as [h' n] eqn:EA.
    assert (HA : NoDup act) by (apply NoDup_filter; auto).
    pose proof (assign_num act 0 0 h) as H1. rewrite EA in H1. cbn [snd] in H1.
    destruct (Nat.eqb_spec numNS 0), (Nat.eqb_spec (length dimsS) 0); cbn [andb].
    1: { right. split; auto. destruct dimsS; auto; discriminate. }
    all: (cbn [pm_dvs pm_numOpt pm_heap pm_rows pm_numErr]; split; [auto|]; split; [intros X; rewrite X in E; auto|];
      split; [destruct dimsS; [cbn in *; left; lia|right; discriminate] || auto|];
      split; [intros k v Hk; pose proof (assign_at act 0 0 h k v HA Hk) as [A B]; rewrite EA in A, B; cbn [fst] in A, B; rewrite A, B; split; reflexivity|];
      split; [rewrite H1; reflexivity|];
      split; [intros v Hv; pose proof (assign_other act 0 0 h v Hv) as X; rewrite EA in X; exact X|];
      split; [intros v; pose proof (assign_attr act 0 0 h v) as X; rewrite EA in X; cbn zeta in X; cbn [fst] in X; intuition|];
      split; [intros k Hk; rewrite assign_rows_nth by auto; reflexivity|reflexivity]).
Qed.

(** repeating the initialisation *)
Lemma active_ext : forall (h h' : dvheap K) dvs, agree_attr h h' -> active_dvs h' dvs = active_dvs h dvs.
Proof.
  intros h h' dvs H. unfold active_dvs. apply filter_ext. intros v. destruct (H v) as [A _]. rewrite A. auto.
Qed.

Lemma initialize_twice : forall (h : dvheap K) dvs numNS dimsS p, NoDup dvs ->
  initialize h dvs numNS dimsS = Ok p ->
  exists p', initialize (pm_heap p) dvs numNS dimsS = Ok p' /\
    pm_dvs p' = pm_dvs p /\ pm_numOpt p' = pm_numOpt p /\ pm_rows p' = pm_rows p /\
    (forall v, dv_block (pm_heap p' v) = dv_block (pm_heap p v) /\ dv_col (pm_heap p' v) = dv_col (pm_heap p v)).
Proof.
  intros h dvs numNS dimsS p HN E.
  pose proof (initialize_ok h dvs numNS dimsS HN) as H1. rewrite E in H1.
  destruct H1 as (A1 & A2 & A3 & A4 & A5 & A6 & A7 & A8 & A9).
  pose proof (initialize_ok (pm_heap p) dvs numNS dimsS HN) as H2.
  assert (EX : filter (fun i => dv_active (pm_heap p i)) dvs = filter (fun i => dv_active (h i)) dvs)
    by exact (active_ext h (pm_heap p) dvs A7).
  set (act := filter (fun i => dv_active (h i)) dvs) in *. rewrite EX in H2.
  assert (EB : forall k, base_of (fun v => dv_dim (pm_heap p v)) act k = base_of (fun v => dv_dim (h v)) act k).
  { intros k. unfold base_of. f_equal. apply map_ext. intros v. apply A7. }
  destruct (initialize (pm_heap p) dvs numNS dimsS) as [p'| |] eqn:E'.
  - destruct H2 as (B1 & B2 & B3 & B4 & B5 & B6 & B7 & B8 & B9).
    exists p'. split; auto. split; [congruence|]. split; [rewrite B5, A5, EB; auto|]. split.
    + unfold initialize in E, E'. 
      destruct (length (active_dvs h dvs) =? 0); [discriminate|].
      destruct (length (active_dvs (pm_heap p) dvs) =? 0); [discriminate|].
      destruct (assign_columns 0 0 (active_dvs h dvs) h), (assign_columns 0 0 (active_dvs (pm_heap p) dvs) (pm_heap p)).
      destruct ((numNS =? 0) && (length dimsS =? 0)); [discriminate|].
      injection E as <-. injection E' as <-. reflexivity.
    + intros v. destruct (in_dec Nat.eq_dec v act) as [Hv|Hv].
      * apply In_nth_error in Hv. destruct Hv as (k & Hk).
        destruct (A4 k v Hk) as [X1 X2]. destruct (B4 k v Hk) as [Y1 Y2]. rewrite X1, X2, Y1, Y2, EB. auto.
      * rewrite (B6 v Hv). auto.
  - exfalso. destruct H2 as [H2|[H2 H3]]; [auto|]. destruct A3; auto.
  - destruct H2.
Qed.

(** ** Optimizer v1 *)
Lemma blocks_other : forall act i (h : dvheap K) v, ~ In v act -> assign_blocks i act h v = h v.
Proof.
  induction act as [|w act IH]; intros i h v H; cbn; auto. cbn in H. rewrite IH by tauto. apply dset_other. intuition.
Qed.
Lemma blocks_at : forall act i (h : dvheap K) k v, NoDup act -> nth_error act k = Some v ->
  dv_block (assign_blocks i act h v) = Z.of_nat (i + k).
Proof.
  induction act as [|w act IH]; intros i h k v HN Hk; [destruct k; discriminate|].
  inversion HN as [|? ? Hn HN']; subst. destruct k as [|k]; cbn in Hk.
  - injection Hk as ->. cbn. rewrite blocks_other by auto. rewrite dset_same. cbn. f_equal; lia.
  - cbn. rewrite (IH (S i) _ k v HN' Hk). f_equal; lia.
Qed.
Lemma partial_sum_nth : forall l acc k, k < length l -> nth k (partial_sum acc l) 0 = acc + fold_right plus 0 (firstn (S k) l).
Proof.
  induction l as [|x l IH]; intros acc k Hk; cbn in Hk; [lia|]. destruct k.
  - cbn. lia.
  - cbn [partial_sum nth]. rewrite IH by lia. cbn [firstn fold_right]. lia.
Qed.

Lemma initialize_v1_ok : forall (h : dvheap K) marg doSchur dvs all nd h' blocks, NoDup dvs ->
  initialize_v1 h marg doSchur dvs = Ok (all, nd, h', blocks) ->
  (forall v, In v all <-> In v dvs /\ dv_active (h v) = true) /\ NoDup all /\ 0 < nd /\
  (forall k v, nth_error all k = Some v -> dv_block (h' v) = Z.of_nat k) /\
  (forall k v, nth_error all k = Some v -> (k < nd <-> marg v && doSchur = false)) /\
  (forall k, k < length all -> nth k blocks 0 = base_of (fun v => dv_dim (h v)) all (S k)) /\
  (forall v, ~ In v all -> h' v = h v).
Proof.
  intros h marg doSchur dvs all nd h' blocks HN E. unfold initialize_v1 in E.
  set (dense := filter (fun i => negb (marg i && doSchur)) (active_dvs h dvs)) in *.
  set (sparse := filter (fun i => marg i && doSchur) (active_dvs h dvs)) in *.
  destruct (Nat.eqb_spec (length dense) 0); [discriminate|]. injection E as <- <- <- <-.
  assert (NA : NoDup (active_dvs h dvs)) by (apply NoDup_filter; auto).
  assert (ND : NoDup dense) by (apply NoDup_filter; auto).
  assert (NS : NoDup sparse) by (apply NoDup_filter; auto).
  assert (Idn : forall v, In v dense <-> (In v dvs /\ dv_active (h v) = true) /\ marg v && doSchur = false).
  { intros v. unfold dense, active_dvs. rewrite !filter_In, negb_true_iff. tauto. }
  assert (Isp : forall v, In v sparse <-> (In v dvs /\ dv_active (h v) = true) /\ marg v && doSchur = true).
  { intros v. unfold sparse, active_dvs. rewrite !filter_In. tauto. }
  assert (DIS : forall v, In v dense -> In v sparse -> False).
  { intros v A B. apply Idn in A. apply Isp in B. intuition congruence. }
  split; [|split; [|split; [|split; [|split; [|split]]]]].
  - intros v. rewrite in_app_iff, Idn, Isp. destruct (marg v && doSchur); intuition.
  - clear -ND NS DIS. induction ND as [|x l Hn Hd IH]; cbn; auto. constructor.
    + intros X. apply in_app_or in X. destruct X; auto. eapply DIS; eauto. left; auto.
    + apply IH. intros v A B. eapply DIS; eauto. right; auto.
  - lia.
  - intros k v Hk. destruct (Nat.lt_ge_cases k (length dense)) as [Hlt|Hge].
    + rewrite nth_error_app1 in Hk by auto. rewrite blocks_other.
      * rewrite (blocks_at dense 0 h k v ND Hk). f_equal; lia.
      * intros X. eapply DIS; eauto. eapply nth_error_In; eauto.
    + rewrite nth_error_app2 in Hk by auto. rewrite (blocks_at sparse (length dense) _ _ v NS Hk). f_equal; lia.
  - intros k v Hk. destruct (Nat.lt_ge_cases k (length dense)) as [Hlt|Hge].
    + rewrite nth_error_app1 in Hk by auto. apply nth_error_In, Idn in Hk. intuition.
    + rewrite nth_error_app2 in Hk by auto. apply nth_error_In, Isp in Hk. intuition; try lia; congruence.
  - intros k Hk. rewrite partial_sum_nth by (rewrite map_length; auto). cbn [Nat.add].
    unfold base_of. rewrite firstn_map. reflexivity.
  - intros v Hv. rewrite !blocks_other; auto; intros X; apply Hv; apply in_or_app; auto.
Qed.
End L.

(** ** state updates *)
Section U.
Context {K : Type} {R : CRing K}.

Lemma apply_ok : forall dvs (h : dvheap K) s dx,
  s + base_of (fun v => dv_dim (h v)) dvs (length dvs) <= length dx ->
  exists calls, applyStateUpdate h dvs s dx = Ok calls /\ map fst calls = dvs /\
    (forall k v, nth_error dvs k = Some v -> nth_error calls k =
       Some (v, map (fun x => kmul x (dv_scaling (h v))) (firstn (dv_dim (h v)) (skipn (s + base_of (fun v => dv_dim (h v)) dvs k) dx)))).
Proof.
  induction dvs as [|w dvs IH]; intros h s dx H; cbn [applyStateUpdate].
  - exists []. split; auto. split; auto. intros k v Hk. destruct k; discriminate.
  - unfold base_of in H. cbn [length firstn map fold_right] in H.
    unfold segment. destruct (Nat.leb_spec (s + dv_dim (h w)) (length dx)); [|lia]. cbn [bind].
    destruct (IH h (s + dv_dim (h w)) dx) as (calls & E & E1 & E2); [unfold base_of; lia|].
    rewrite E. cbn [bind]. eexists. split; [reflexivity|]. split; [cbn; rewrite E1; auto|].
    intros [|k] v Hk; cbn in Hk.
    + injection Hk as ->. cbn. do 4 f_equal. unfold base_of. cbn. rewrite Nat.add_0_r. reflexivity.
    + cbn [nth_error]. rewrite (E2 k v Hk). unfold base_of. cbn [firstn map fold_right]. do 4 f_equal. f_equal. lia.
Qed.

(** the unscaled slices put one after the other are the front part of dx *)
Lemma slices_concat : forall dim l (dx : list K) s, s + base_of dim l (length l) <= length dx ->
  concat (map (fun k => firstn (dim (nth k l 0)) (skipn (s + base_of dim l k) dx)) (seq 0 (length l))) =
  firstn (base_of dim l (length l)) (skipn s dx).
Proof.
  intros dim l dx s H.
  assert (G : forall n, n <= length l -> concat (map (fun k => firstn (dim (nth k l 0)) (skipn (s + base_of dim l k) dx)) (seq 0 n)) =
     firstn (base_of dim l n) (skipn s dx)).
  { induction n as [|n IH]; intros Hn; [reflexivity|].
    rewrite seq_S, map_app, concat_app, IH by lia. cbn [Nat.add map concat]. rewrite app_nil_r.
    assert (En : nth_error l n = Some (nth n l 0)) by (apply nth_error_nth'; lia).
    rewrite (base_of_S _ _ _ _ En).
    assert (A : forall (a b : nat) (z : list K), firstn (a + b) z = firstn a z ++ firstn b (skipn a z)).
    { clear. induction a as [|a IHa]; intros b [|x z]; cbn; auto; [destruct b; auto|]. f_equal. apply IHa. }
    rewrite A. do 2 f_equal.
    clear. revert dx. induction s as [|s IHs]; intros dx; [reflexivity|]. destruct dx; cbn; auto. destruct (base_of dim l n); auto. }
  apply G. auto.
Qed.

Lemma exec_other : forall S (upd : nat -> S -> list K -> S) calls vals v, ~ In v (map fst calls) -> exec_updates upd calls vals v = vals v.
Proof.
  intros S upd. induction calls as [|[w d] calls IH]; intros vals v H; cbn; auto. cbn in H. rewrite IH by tauto.
  destruct (Nat.eqb_spec v w); [subst; tauto|auto].
Qed.
Lemma exec_at : forall S (upd : nat -> S -> list K -> S) calls vals v d, NoDup (map fst calls) -> In (v, d) calls ->
  exec_updates upd calls vals v = upd v (vals v) d.
Proof.
  intros S upd. induction calls as [|[w d'] calls IH]; intros vals v d HN Hin; [destruct Hin|].
  cbn in HN. inversion HN as [|? ? Hn HN']; subst. destruct Hin as [E|Hin].
  - injection E as -> ->. cbn. rewrite exec_other by auto. rewrite Nat.eqb_refl. auto.
  - cbn. rewrite (IH _ v d HN' Hin). destruct (Nat.eqb_spec v w); auto. subst. exfalso. apply Hn.
    change w with (fst (w, d)). apply in_map. auto.
Qed.

Lemma applyStateUpdate_ok : forall (h0 : dvheap K) dvs numNS dimsS p dx, NoDup dvs ->
  initialize h0 dvs numNS dimsS = Ok p -> Z.of_nat (length dx) = pm_numOpt p ->
  exists calls, applyStateUpdate (pm_heap p) (pm_dvs p) 0 dx = Ok calls /\
    (* exactly one call per active variable, in order *)
    map fst calls = pm_dvs p /\
    (* with its own columns, scaled *)
    (forall v, In v (pm_dvs p) -> In (v, map (fun x => kmul x (dv_scaling (h0 v)))
        (firstn (dv_dim (h0 v)) (skipn (Z.to_nat (dv_col (pm_heap p v))) dx))) calls) /\
    (* the slices in order are exactly dx *)
    concat (map (fun v => firstn (dv_dim (h0 v)) (skipn (Z.to_nat (dv_col (pm_heap p v))) dx)) (pm_dvs p)) = dx /\
    (* effect on the values *)
    (forall (S : Type) (upd : nat -> S -> list K -> S) vals v,
       exec_updates upd calls vals v =
       if in_dec Nat.eq_dec v (pm_dvs p)
       then upd v (vals v) (map (fun x => kmul x (dv_scaling (h0 v))) (firstn (dv_dim (h0 v)) (skipn (Z.to_nat (dv_col (pm_heap p v))) dx)))
       else vals v).
Proof.
  intros h0 dvs numNS dimsS p dx HN E Hdx.
  pose proof (initialize_ok h0 dvs numNS dimsS HN) as H. rewrite E in H.
  destruct H as (A1 & A2 & A3 & A4 & A5 & A6 & A7 & A8 & A9).
  set (act := filter (fun i => dv_active (h0 i)) dvs) in *. rewrite A1.
  assert (HA : NoDup act) by (apply NoDup_filter; auto).
  assert (EB : forall k, base_of (fun v => dv_dim (pm_heap p v)) act k = base_of (fun v => dv_dim (h0 v)) act k).
  { intros k. unfold base_of. f_equal. apply map_ext. intros v. apply A7. }
  assert (EL : length dx = base_of (fun v => dv_dim (h0 v)) act (length act)) by lia.
  destruct (apply_ok act (pm_heap p) 0 dx) as (calls & C1 & C2 & C3); [rewrite EB; lia|].
  assert (HIn : forall v, In v act -> In (v, map (fun x => kmul x (dv_scaling (h0 v)))
        (firstn (dv_dim (h0 v)) (skipn (Z.to_nat (dv_col (pm_heap p v))) dx))) calls).
  { intros v Hv. apply In_nth_error in Hv. destruct Hv as (k & Hk). pose proof (C3 k v Hk) as X.
    destruct (A7 v) as (_ & D & Sc). rewrite D, Sc, EB in X. destruct (A4 k v Hk) as [_ Cl].
    rewrite Cl, Nat2Z.id. eapply nth_error_In. exact X. }
  exists calls. split; auto. split; auto. split; auto. split.
  - transitivity (firstn (length dx) (skipn 0 dx)); [|apply firstn_all].
    rewrite EL at 1. rewrite <- slices_concat by lia.
    f_equal. clear -A4 HA.
    assert (SQ : act = map (fun k => nth k act 0) (seq 0 (length act))).
    { clear. induction act as [|x l IH]; auto. cbn [length seq map nth]. f_equal. rewrite <- seq_shift, map_map. exact IH. }
    rewrite SQ at 1. rewrite map_map. apply map_ext_in. intros k Hk. apply in_seq in Hk. cbn [Nat.add] in *.
    destruct (A4 k (nth k act 0) ltac:(apply nth_error_nth'; lia)) as [_ Cl]. rewrite Cl, Nat2Z.id. reflexivity.
  - intros S upd vals v. destruct (in_dec Nat.eq_dec v act) as [Hv|Hv].
    + apply exec_at; auto. rewrite C2; auto.
    + apply exec_other. rewrite C2; auto.
Qed.

(** scaling of a gradient *)
Lemma scaling_ok : forall (h0 : dvheap K) dvs numNS dimsS p (g : vec K), NoDup dvs ->
  initialize h0 dvs numNS dimsS = Ok p ->
  forall k v i, nth_error (pm_dvs p) k = Some v -> i < dv_dim (h0 v) ->
    applyDesignVariableScaling (pm_heap p) (pm_dvs p) g (Z.to_nat (dv_col (pm_heap p v)) + i) =
    kmul (g (Z.to_nat (dv_col (pm_heap p v)) + i)) (dv_scaling (h0 v)).
Proof.
  intros h0 dvs numNS dimsS p g HN E k v i Hk Hi.
  pose proof (initialize_ok h0 dvs numNS dimsS HN) as H. rewrite E in H.
  destruct H as (A1 & A2 & A3 & A4 & A5 & A6 & A7 & A8 & A9).
  set (act := filter (fun i => dv_active (h0 i)) dvs) in *. rewrite A1 in *.
  destruct (A4 k v Hk) as [_ Cv]. rewrite Cv, Nat2Z.id.
  set (c := base_of (fun v => dv_dim (h0 v)) act k + i).
  assert (Hc : base_of (fun v => dv_dim (h0 v)) act k <= c < base_of (fun v => dv_dim (h0 v)) act (S k)).
  { rewrite (base_of_S _ _ _ _ Hk). unfold c. lia. }
  assert (G : forall l o g, (forall j w, nth_error l j = Some w -> nth_error act (o + j) = Some w) ->
     applyDesignVariableScaling (pm_heap p) l g c =
     if (o <=? k) && (k <? o + length l) then kmul (g c) (dv_scaling (h0 v)) else g c).
  { induction l as [|w l IH]; intros o g0 Hl; cbn [applyDesignVariableScaling length].
    - destruct (Nat.leb_spec o k), (Nat.ltb_spec k (o + 0)); cbn; auto; lia.
    - rewrite (IH (S o)).
      2: { intros j x Hj. replace (S o + j) with (o + S j) by lia. apply Hl. exact Hj. }
      assert (Hw : nth_error act o = Some w) by (replace o with (o + 0) by lia; apply (Hl 0 w); reflexivity).
      destruct (A4 o w Hw) as [_ Cw]. destruct (A7 w) as (_ & Dw & Sw).
      unfold scale_block. rewrite Cw, Dw, Sw, Nat2Z.id.
      rewrite <- (base_of_S (fun v => dv_dim (h0 v)) act o w Hw).
      destruct (Nat.lt_trichotomy o k) as [L|[L|L]].
      + pose proof (base_of_mono (fun v => dv_dim (h0 v)) act k (S o) L).
        destruct (Nat.leb_spec (base_of (fun v => dv_dim (h0 v)) act o) c), (Nat.ltb_spec c (base_of (fun v => dv_dim (h0 v)) act (S o))),
          (Nat.leb_spec (S o) k), (Nat.leb_spec o k), (Nat.ltb_spec k (S o + length l)), (Nat.ltb_spec k (o + S (length l))); cbn [andb]; auto; lia.
      + subst o. rewrite Hk in Hw. injection Hw as <-.
        destruct (Nat.leb_spec (base_of (fun v => dv_dim (h0 v)) act k) c), (Nat.ltb_spec c (base_of (fun v => dv_dim (h0 v)) act (S k))),
          (Nat.leb_spec (S k) k), (Nat.leb_spec k k), (Nat.ltb_spec k (S k + length l)), (Nat.ltb_spec k (k + S (length l))); cbn [andb]; auto; lia.
      + pose proof (base_of_mono (fun v => dv_dim (h0 v)) act o (S k) L).
        destruct (Nat.leb_spec (base_of (fun v => dv_dim (h0 v)) act o) c), (Nat.ltb_spec c (base_of (fun v => dv_dim (h0 v)) act (S o))),
          (Nat.leb_spec (S o) k), (Nat.leb_spec o k), (Nat.ltb_spec k (S o + length l)), (Nat.ltb_spec k (o + S (length l))); cbn [andb]; auto; lia. }
  rewrite (G act 0 g); [|auto].
  assert (k < length act) by (apply nth_error_Some; congruence).
  destruct (Nat.leb_spec 0 k), (Nat.ltb_spec k (0 + length act)); cbn [andb]; auto; lia.
Qed.
End U.
