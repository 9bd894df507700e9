(** * Proofs for marginal covariances *)
From Coq Require Import Arith Lia List ZArith Bool Sorting.Permutation Sorting.Sorted.
From Verif Require Import Lib_Ring Lib_Res CCM_Model CCM_Proofs CCM_Proofs3 SBM_Model SBM_Spec SBM_Proofs SBM_Proofs2 Cov_Model Cov_Spec.
From Verif Require CCM_Spec.
Import ListNotations.

Section Proofs.
  Context {K : Type} {R : CRing K}.
  Add Ring Kring_cov : (@kring K R).
  Variable recip : K -> K.
  Variable sort : list (nat * nat) -> list (nat * nat).
  Variables (n : nat) (Lp Li : list nat) (Lx : list K) (L X : mat K) (perm : option (list nat)).
  Hypothesis Fa : factor n Lp Li Lx L.
  Hypothesis Inv : inverse_of_factor n L X.
  Hypothesis Rec : forall r, r < n -> kmul (recip (L r r)) (L r r) = k1.
  Hypothesis Fit : fits_int n.
  Hypothesis Pe : in_range n perm.
  Hypothesis Srt : forall l, Permutation (sort l) l.
  Notation am := (arrays n Lp Li Lx).
  Notation cp := (CCM_Spec.colptr am). Notation ri := (CCM_Spec.rowind am).
  Let d r := recip (L r r).

  Lemma prod_sym : forall p q, mmul n L (mtr L) p q = mmul n L (mtr L) q p.
  Proof. intros. unfold mmul, mtr. apply ksum_ext. intros. ring. Qed.
  Lemma X_sym : forall r c, r < n -> c < n -> X r c = X c r.
  Proof.
    intros r c Hr Hc. set (P := mmul n L (mtr L)). assert (LI : meq n n (mmul n (mtr X) P) mid).
    { intros i j Hi Hj. pose proof (Inv j i Hj Hi) as E. unfold mid in *. rewrite delta_sym, <- E. change (ksum n (fun k => kmul (X k i) (P k j)) = ksum n (fun k => kmul (P j k) (X k i))). apply ksum_ext. intros k Hk. unfold P. rewrite (prod_sym k j). ring. }
    change (X c r) with (mtr X r c). transitivity (mmul n (mmul n (mtr X) P) X r c).
    - etransitivity; [|symmetry; apply (mmul_ext n n n _ mid _ X); auto; apply meq_refl]. symmetry. apply (mmul_id_l n n); auto.
    - rewrite mmul_assoc_pt. etransitivity; [apply (mmul_ext n n n _ (mtr X) _ mid); auto; apply meq_refl|]. apply (mmul_id_r n n); auto.
  Qed.
  Lemma below : forall c p, c < n -> cp c < p < cp (c + 1) -> c < ri p.
  Proof. intros c p Hc Hp. destruct Fa as (W & _ & D). destruct (D c Hc) as (_ & E). rewrite <- E at 1. apply (CCM_Spec.wf_sorted _ W c); auto; lia. Qed.
  Lemma L_upper : forall r k, r < n -> k < n -> r < k -> L r k = k0.
  Proof.
    intros r k Hr Hk G. pose proof Fa as (W & S & D). destruct (S r k Hr Hk) as [(p & P1 & P2 & _)|(_ & Z)]; auto. exfalso. destruct (D k Hk) as (D1 & D2).
    destruct (Nat.eq_dec p (cp k)) as [->|N]; [lia|]. pose proof (below k p Hk ltac:(lia)). lia.
  Qed.
  Lemma Y_upper : forall r c, r <= c -> c < n -> mmul n (mtr L) X r c = if r =? c then d r else k0.
  Proof.
    intros r. induction r as [r IH] using lt_wf_ind. intros c Hrc Hc.
    pose proof (Inv r c ltac:(lia) Hc) as E. rewrite mmul_assoc_pt in E. unfold mid in E. unfold mmul at 1 in E.
    replace n with (r + (n - r)) in E at 1 by lia. rewrite ksum_split in E.
    assert (E1 : ksum r (fun k => kmul (L r k) (mmul n (mtr L) X k c)) = k0).
    { apply ksum_zero. intros k Hk. rewrite IH by lia. rewrite (proj2 (Nat.eqb_neq k c)) by lia. ring. }
    replace (n - r) with (Datatypes.S (n - r - 1)) in E by lia. rewrite ksum_S_l in E. rewrite Nat.add_0_r in E.
    assert (E2 : ksum (n - r - 1) (fun k => kmul (L r (r + Datatypes.S k)) (mmul n (mtr L) X (r + Datatypes.S k) c)) = k0).
    { apply ksum_zero. intros k Hk. rewrite L_upper by lia. ring. }
    rewrite E1, E2 in E. assert (E3 : kmul (L r r) (mmul n (mtr L) X r c) = delta r c) by (rewrite <- E; ring).
    transitivity (kmul (kmul (d r) (L r r)) (mmul n (mtr L) X r c)); [unfold d; rewrite Rec by lia; ring|].
    transitivity (kmul (d r) (kmul (L r r) (mmul n (mtr L) X r c))); [ring|]. rewrite E3. destruct (Nat.eqb_spec r c) as [->|N]; [rewrite delta_refl|rewrite delta_neq by auto]; ring.
  Qed.
  (* what the loop in computeEntry sums up *)
  Definition tail_sum r c : K := ksum (cp (r + 1) - (cp r + 1)) (fun k => kmul (X (ri (cp r + 1 + k)) c) (nth (cp r + 1 + k) Lx k0)).
  Lemma tail_eq : forall r c, r < n -> c < n -> kadd (kmul (L r r) (X r c)) (tail_sum r c) = mmul n (mtr L) X r c.
  Proof.
    intros r c Hr Hc. pose proof Fa as (W & S & D). destruct (D r Hr) as (D1 & D2). pose proof (column_sum am L (fun k => X k c) r W S Hr) as E. cbn [c_rows c_vals arrays] in E.
    unfold mmul, mtr. rewrite <- E. replace (cp (r + 1) - cp r) with (Datatypes.S (cp (r + 1) - (cp r + 1))) by lia. rewrite ksum_S_l, Nat.add_0_r, D2. f_equal.
    - f_equal. destruct (in_column k0 am L r r W S Hr Hr) as [(p & P1 & P2 & P3 & P4)|(Q1 & _)].
      + rewrite <- P3. cbn [c_vals arrays]. f_equal. symmetry. apply P4; auto; lia.
      + exfalso. apply (Q1 (cp r)); auto; lia.
    - unfold tail_sum. apply ksum_ext. intros k Hk. replace (cp r + Datatypes.S k) with (cp r + 1 + k) by lia. ring.
  Qed.
  Lemma recurrence : forall r c, r <= c -> c < n -> X r c = if r =? c then kmul (d r) (ksub (d r) (tail_sum r c)) else kmul (kopp (tail_sum r c)) (d r).
  Proof.
    intros r c Hrc Hc. pose proof (tail_eq r c ltac:(lia) Hc) as E. rewrite Y_upper in E by auto.
    assert (E' : X r c = kmul (d r) (ksub (if r =? c then d r else k0) (tail_sum r c))).
    { rewrite <- E. transitivity (kmul (kmul (d r) (L r r)) (X r c)); [unfold d; rewrite Rec by lia; ring|ring]. }
    rewrite E'. destruct (r =? c); ring.
  Qed.

  Lemma rd_ok : forall A (l : list A) i z, i < length l -> rd l i = Ok (nth i l z).
  Proof. intros A l i z H. unfold rd. rewrite (nth_error_nth' l z H). auto. Qed.
  Lemma mapM_ok : forall A B (f : A -> res B) (g : A -> B) l, (forall x, In x l -> f x = Ok (g x)) -> mapM f l = Ok (map g l).
  Proof. intros A B f g l. induction l as [|x l IH]; intros H; cbn [mapM map]; auto. rewrite H by (left; auto). cbn [bind]. rewrite IH by (intros; apply H; right; auto). auto. Qed.
  Lemma cp_len : length Lp = n + 1. Proof. destruct Fa as (W & _). pose proof (CCM_Spec.wf_cp_len _ W). auto. Qed.
  Lemma cp_le : forall c, c < n -> cp (c + 1) <= length Lx.
  Proof. intros c Hc. destruct Fa as (W & _). pose proof (cp_bound am W (c + 1)) as E. cbn [c_cols c_vals arrays] in E. apply E. lia. Qed.
  Lemma ri_len : length Li = length Lx. Proof. destruct Fa as (W & _). apply (CCM_Spec.wf_ri_len _ W). Qed.
  Lemma first_value : forall r, r < n -> nth (cp r) Lx k0 = L r r.
  Proof.
    intros r Hr. pose proof Fa as (W & S & D). destruct (D r Hr) as (D1 & D2). destruct (in_column k0 am L r r W S Hr Hr) as [(p & P1 & P2 & P3 & P4)|(Q1 & _)].
    - rewrite <- P3. cbn [c_vals arrays]. f_equal. apply P4; auto; lia.
    - exfalso. apply (Q1 (cp r)); auto; lia.
  Qed.
  Definition Mof : mcc K := mkMcc n Lp Li Lx perm (map d (seq 0 n)).
  Lemma set_factor : setCholeskyFactor recip n Lp Li Lx perm = Ok Mof.
  Proof.
    unfold setCholeskyFactor. rewrite (mapM_ok _ _ _ d); auto. intros r Hr. apply in_seq in Hr. rewrite (rd_ok _ _ _ 0) by (rewrite cp_len; lia). cbn [bind].
    change (nth r Lp 0) with (cp r). destruct Fa as (_ & _ & D). destruct (D r ltac:(lia)) as (D1 & _). pose proof (cp_le r ltac:(lia)). rewrite (rd_ok _ _ _ k0) by lia. cbn [bind]. rewrite first_value by lia. auto.
  Qed.

  Definition idx (r c : nat) : Z := (Z.of_nat r * Z.of_nat n + Z.of_nat c)%Z.
  Lemma idx_ok : forall r c, r < n -> c < n -> computeIndex Mof r c = Ok (idx r c).
  Proof. intros r c Hr Hc. unfold computeIndex. cbn [m_n Mof]. fold (idx r c). rewrite (proj2 (Z.leb_le _ _)); auto. unfold idx. unfold fits_int in Fit. nia. Qed.
  Lemma idx_inj : forall r c r' c', c < n -> c' < n -> idx r c = idx r' c' -> r = r' /\ c = c'.
  Proof. intros r c r' c' H1 H2 E. unfold idx in E. assert (r = r') by nia. split; auto. subst. lia. Qed.

  Definition sound (m : memo K) : Prop := forall r c v, r <= c -> c < n -> lookup (idx r c) m = Some v -> v = X r c.
  Definition extends (m m' : memo K) : Prop := forall i, lookup i m <> None -> lookup i m' <> None.
  Lemma entry_ok : forall fuel r c m, r <= c -> c < n -> 2 * n + 1 <= fuel + r + c -> sound m ->
    exists m', computeEntry Mof fuel r c m = Ok (X r c, m') /\ sound m' /\ extends m m' /\ lookup (idx r c) m' <> None.
  Proof.
    induction fuel as [|f IH]; intros r c m Hrc Hc Hf Sm; [lia|]. cbn [computeEntry]. rewrite idx_ok by lia. cbn [bind].
    destruct (lookup (idx r c) m) as [v|] eqn:El.
    - rewrite (Sm r c v Hrc Hc El). exists m. split; auto. split; auto. split; [intros i; auto|]. congruence.
    - cbn [m_Ap m_Ai m_Ax m_diag Mof]. rewrite !(rd_ok _ Lp _ 0) by (rewrite cp_len; lia). cbn [bind]. change (nth r Lp 0) with (cp r). change (nth (r + 1) Lp 0) with (cp (r + 1)).
      destruct Fa as (W & S & D). destruct (D r ltac:(lia)) as (D1 & _). pose proof (cp_le r ltac:(lia)) as CL. pose proof ri_len as RL.
      assert (P : forall k a0, k <= cp (r + 1) - (cp r + 1) -> exists m', fold_left (fun x j => do sm <- x; do rr <- rd Li j;
                   do vm <- (if rr <? c then computeEntry Mof f rr c (snd sm) else computeEntry Mof f c rr (snd sm));
                   do a <- rd Lx j; Ok (kadd (fst sm) (kmul (fst vm) a), snd vm)) (seq (cp r + 1) k) (Ok (a0, m)) =
                 Ok (kadd a0 (ksum k (fun k => kmul (X (ri (cp r + 1 + k)) c) (nth (cp r + 1 + k) Lx k0))), m') /\ sound m' /\ extends m m').
      { induction k as [|k IHk]; intros a0 Hk.
        - exists m. cbn [seq fold_left ksum]. split; [f_equal; f_equal; ring|]. split; auto. intros i; auto.
        - destruct (IHk a0 ltac:(lia)) as (m1 & E1 & S1 & X1). rewrite seq_S, fold_left_app, E1. cbn [fold_left bind snd fst].
          rewrite (rd_ok _ Li _ 0) by lia. cbn [bind]. change (nth (cp r + 1 + k) Li 0) with (ri (cp r + 1 + k)).
          pose proof (below r (cp r + 1 + k) ltac:(lia) ltac:(lia)) as Bl. assert (Rn : ri (cp r + 1 + k) < n) by (apply (CCM_Spec.wf_range _ W r); cbn [c_cols arrays]; lia).
          assert (Q : exists m2, (if ri (cp r + 1 + k) <? c then computeEntry Mof f (ri (cp r + 1 + k)) c m1 else computeEntry Mof f c (ri (cp r + 1 + k)) m1) = Ok (X (ri (cp r + 1 + k)) c, m2) /\ sound m2 /\ extends m1 m2).
          { destruct (Nat.ltb_spec (ri (cp r + 1 + k)) c) as [G|G].
            - destruct (IH (ri (cp r + 1 + k)) c m1 ltac:(lia) Hc ltac:(lia) S1) as (m2 & E2 & S2 & X2 & _). exists m2. auto.
            - destruct (IH c (ri (cp r + 1 + k)) m1 G Rn ltac:(lia) S1) as (m2 & E2 & S2 & X2 & _). exists m2. rewrite (X_sym (ri (cp r + 1 + k)) c) by auto. auto. }
          destruct Q as (m2 & E2 & S2 & X2). rewrite E2. cbn [bind fst snd]. rewrite (rd_ok _ Lx _ k0) by lia. cbn [bind]. exists m2. split; [|split; auto; intros i Hi; apply X2; apply X1; auto].
          cbn [ksum]. f_equal. f_equal. ring. }
      destruct (P (cp (r + 1) - (cp r + 1)) k0 ltac:(lia)) as (m' & E & Sm' & Xm'). rewrite E. cbn [bind fst snd]. rewrite (rd_ok _ _ _ (d 0)) by (rewrite map_length, seq_length; lia). cbn [bind].
      rewrite map_nth, seq_nth by lia. cbn [plus]. fold (tail_sum r c).
      assert (Q : (if r =? c then kmul (d r) (ksub (d r) (kadd k0 (tail_sum r c))) else kmul (kopp (kadd k0 (tail_sum r c))) (d r)) = X r c).
      { rewrite (recurrence r c) by auto. replace (kadd k0 (tail_sum r c)) with (tail_sum r c) by ring. auto. }
      rewrite Q. eexists. split; [reflexivity|]. split; [|split].
      + intros r' c' v H1 H2. cbn [lookup]. destruct (Z.eqb_spec (idx r' c') (idx r c)) as [Ei|Ni].
        * apply idx_inj in Ei; auto. destruct Ei as (-> & ->). congruence.
        * intros El'. apply Sm'; auto.
      + intros i Hi. cbn [lookup]. destruct (i =? idx r c)%Z; [discriminate|apply Xm'; auto].
      + cbn [lookup]. rewrite Z.eqb_refl. discriminate.
  Qed.

  Lemma all_ok : forall l, (forall e, In e l -> fst e <= snd e /\ snd e < n) -> exists m, computeAll sort Mof l = Ok m /\ sound m /\ forall e, In e l -> lookup (idx (fst e) (snd e)) m <> None.
  Proof.
    intros l H. unfold computeAll. assert (H' : forall e, In e (sort l) -> fst e <= snd e /\ snd e < n) by (intros e He; apply H; apply (Permutation_in _ (Srt l)); auto).
    assert (P : forall l0 m0, (forall e, In e l0 -> fst e <= snd e /\ snd e < n) -> sound m0 -> exists m, fold_left (fun x e => do m <- x; do vm <- computeEntry Mof (enough Mof) (fst e) (snd e) m; Ok (snd vm)) l0 (Ok m0) = Ok m /\ sound m /\ extends m0 m /\
      forall e, In e l0 -> lookup (idx (fst e) (snd e)) m <> None).
    { induction l0 as [|e l0 IH]; intros m0 Hl Sm; cbn [fold_left].
      - exists m0. split; auto. split; auto. split; [intros i; auto|intros e []].
      - destruct (Hl e) as (H1 & H2); [left; auto|]. destruct (entry_ok (enough Mof) (fst e) (snd e) m0 H1 H2) as (m1 & E1 & S1 & X1 & L1); auto. { unfold enough. cbn [m_n Mof]. lia. }
        cbn [bind]. rewrite E1. cbn [bind snd]. destruct (IH m1) as (m & E & S & Xm & Lm); auto; [intros; apply Hl; right; auto|]. exists m. split; auto. split; auto. split; [intros i Hi; apply Xm; apply X1; auto|].
        intros e' [<-|He]; [apply Xm; auto|apply Lm; auto]. }
    destruct (P (sort l) [] H') as (m & E & S & _ & Lm). { intros r c v _ _ Hl. discriminate Hl. }
    exists m. split; auto. split; auto. intros e He. apply Lm. apply (Permutation_in _ (Permutation_sym (Srt l))). auto.
  Qed.

  Notation pos := (position perm).
  Lemma pos_lt : forall i, i < n -> pos i < n. Proof. intros i Hi. unfold position. unfold in_range in Pe. destruct perm as [l|]; auto. apply Pe; auto. Qed.
  Definition ppos (rr cc : nat) : nat * nat := if pos cc <? pos rr then (pos cc, pos rr) else (pos rr, pos cc).
  Lemma permuted_ok : forall rr cc, rr < n -> cc < n -> permuted_pos Mof rr cc = Ok (ppos rr cc).
  Proof.
    intros rr cc Hr Hc. unfold permuted_pos, ppos. cbn [m_perm Mof]. unfold position. unfold in_range in Pe. destruct perm as [l|]; auto. destruct Pe as (Pl & _). rewrite !(rd_ok _ l _ 0) by lia. auto.
  Qed.
  Lemma ppos_range : forall rr cc, rr < n -> cc < n -> fst (ppos rr cc) <= snd (ppos rr cc) /\ snd (ppos rr cc) < n.
  Proof. intros rr cc Hr Hc. pose proof (pos_lt rr Hr). pose proof (pos_lt cc Hc). unfold ppos. destruct (Nat.ltb_spec (pos cc) (pos rr)); cbn [fst snd]; lia. Qed.
  Lemma fetch_ok : forall m rr cc, sound m -> rr < n -> cc < n -> lookup (idx (fst (ppos rr cc)) (snd (ppos rr cc))) m <> None -> fetch Mof m rr cc = Ok (X (pos rr) (pos cc)).
  Proof.
    intros m rr cc Sm Hr Hc Hl. unfold fetch. rewrite permuted_ok by auto. cbn [bind]. destruct (ppos_range rr cc Hr Hc) as (P1 & P2). rewrite idx_ok by lia. cbn [bind].
    destruct (lookup (idx (fst (ppos rr cc)) (snd (ppos rr cc))) m) as [v|] eqn:E; [|congruence]. rewrite (Sm _ _ _ P1 P2 E). f_equal. unfold ppos. destruct (pos cc <? pos rr); cbn [fst snd]; auto. apply X_sym; apply pos_lt; auto.
  Qed.

  (* the requests *)
  Lemma requests_ok : forall l, (forall p, In p l -> fst p < n /\ snd p < n) -> mapM (fun p => permuted_pos Mof (fst p) (snd p)) l = Ok (map (fun p => ppos (fst p) (snd p)) l).
  Proof. intros l H. apply mapM_ok. intros p Hp. apply permuted_ok; apply H; auto. Qed.

  Lemma run_ok : forall l, (forall p, In p l -> fst p < n /\ snd p < n) ->
    exists m, (do req <- mapM (fun p => permuted_pos Mof (fst p) (snd p)) l; computeAll sort Mof req) = Ok m /\
      forall p, In p l -> fetch Mof m (fst p) (snd p) = Ok (X (pos (fst p)) (pos (snd p))).
  Proof.
    intros l H. rewrite requests_ok by auto. cbn [bind]. destruct (all_ok (map (fun p => ppos (fst p) (snd p)) l)) as (m & E & S & Lm).
    { intros e He. apply in_map_iff in He. destruct He as (p & <- & Hp). apply ppos_range; apply H; auto. }
    exists m. split; auto. intros p Hp. apply fetch_ok; auto; try (apply H; auto). apply Lm. apply in_map_iff. exists p. auto.
  Qed.

  Lemma in_triangle : forall v r c, In (r, c) (triangle v) <-> r <= c /\ c < v.
  Proof.
    intros v r c. unfold triangle. rewrite in_flat_map. split.
    - intros (rr & Hr & H). apply in_map_iff in H. destruct H as (cc & E & Hc). injection E as -> ->. apply in_seq in Hr, Hc. lia.
    - intros H. exists r. split; [apply in_seq; lia|]. apply in_map_iff. exists c. split; auto. apply in_seq. lia.
  Qed.
  Lemma in_square : forall a b r c, In (r, c) (square a b) <-> r < a /\ c < b.
  Proof.
    intros a b r c. unfold square. rewrite in_flat_map. split.
    - intros (rr & Hr & H). apply in_map_iff in H. destruct H as (cc & E & Hc). injection E as -> ->. apply in_seq in Hr, Hc. lia.
    - intros H. exists r. split; [apply in_seq; lia|]. apply in_map_iff. exists c. split; auto. apply in_seq. lia.
  Qed.
  Lemma cell_inj : forall v r c r' c', c < v -> c' < v -> r * v + c = r' * v + c' -> r = r' /\ c = c'.
  Proof. intros. assert (r = r') by nia. subst. lia. Qed.

  (* one block in the memory of the caller *)
  Lemma write_ok : forall m bv cov, (forall e, In e (triangle (snd bv)) -> fetch Mof m (fst bv + fst e) (fst bv + snd e) = Ok (X (pos (fst bv + fst e)) (pos (fst bv + snd e)))) -> fst bv + snd bv <= n ->
    exists cov', write_cov Mof m bv cov = Ok cov' /\ (forall rr cc, rr < snd bv -> cc < snd bv -> cov' (rr * snd bv + cc) = X (pos (fst bv + rr)) (pos (fst bv + cc))) /\ (forall q, snd bv * snd bv <= q -> cov' q = cov q).
  Proof.
    intros m [b v] cov H Hn. cbn [fst snd] in *. unfold write_cov. cbn [fst snd].
    assert (P : forall l done, (forall e, In e l -> In e (triangle v)) -> (forall e, In e done -> In e (triangle v)) -> forall cov0,
      (forall r c, In (r, c) done -> cov0 (r * v + c) = X (pos (b + r)) (pos (b + c)) /\ cov0 (c * v + r) = X (pos (b + c)) (pos (b + r))) -> (forall q, v * v <= q -> cov0 q = cov q) ->
      exists cov', fold_left (fun x e => do cov <- x; do y <- fetch Mof m (b + fst e) (b + snd e); let cov := set_at cov (fst e * v + snd e) y in Ok (if fst e =? snd e then cov else set_at cov (snd e * v + fst e) y)) l (Ok cov0) = Ok cov' /\
        (forall r c, In (r, c) (done ++ l) -> cov' (r * v + c) = X (pos (b + r)) (pos (b + c)) /\ cov' (c * v + r) = X (pos (b + c)) (pos (b + r))) /\ (forall q, v * v <= q -> cov' q = cov q)).
    { induction l as [|[r c] l IH]; intros done Hl Hd cov0 H0 Hq; cbn [fold_left].
      - exists cov0. rewrite app_nil_r. auto.
      - cbn [bind fst snd]. pose proof (Hl (r, c) (or_introl eq_refl)) as Ht. pose proof (H (r, c) Ht) as Hrc. cbn [fst snd] in Hrc. rewrite Hrc. cbn [bind fst snd]. pose proof (proj1 (in_triangle _ _ _) Ht) as (T1 & T2).
        set (y := X (pos (b + r)) (pos (b + c))).
        assert (Sy : y = X (pos (b + c)) (pos (b + r))) by (apply X_sym; apply pos_lt; lia).
        set (cov1 := if r =? c then set_at cov0 (r * v + c) y else set_at (set_at cov0 (r * v + c) y) (c * v + r) y).
        assert (C1 : forall r' c', r' < v -> c' < v -> cov1 (r' * v + c') = if ((r' =? r) && (c' =? c)) || ((r' =? c) && (c' =? r)) then y else cov0 (r' * v + c')).
        { intros r' c' Hr' Hc'. assert (Z : forall a e, a < v -> e < v -> (r' * v + c' =? a * v + e) = (r' =? a) && (c' =? e)).
          { intros a e Ha He. destruct (Nat.eqb_spec (r' * v + c') (a * v + e)) as [E|N].
            - apply cell_inj in E; auto. destruct E as (-> & ->). rewrite !Nat.eqb_refl. auto.
            - destruct (Nat.eqb_spec r' a) as [->|]; auto. destruct (Nat.eqb_spec c' e) as [->|]; auto. }
          unfold cov1. destruct (Nat.eqb_spec r c) as [->|N]; unfold set_at; rewrite ?Z by lia.
          - destruct ((r' =? c) && (c' =? c)); auto.
          - destruct ((r' =? c) && (c' =? r)), ((r' =? r) && (c' =? c)); auto. }
        destruct (IH (done ++ [(r, c)])) with (cov0 := cov1) as (cov' & E & A1 & A2).
        + intros; apply Hl; right; auto.
        + intros e He. apply in_app_or in He. destruct He as [He|[<-|[]]]; auto.
        + intros r' c' Hin. assert (In (r', c') (triangle v)) as Ht' by (apply in_app_or in Hin; destruct Hin as [Hin|[E|[]]]; [apply Hd; auto|rewrite <- E; auto]). apply in_triangle in Ht'.
          rewrite !C1 by lia. apply in_app_or in Hin. split.
          * destruct (Nat.eqb_spec r' r) as [->|N1]; [destruct (Nat.eqb_spec c' c) as [->|N2]|]; cbn [andb orb].
            -- reflexivity.
            -- destruct Hin as [Hin|[E|[]]]; [|congruence]. destruct (Nat.eqb_spec r c) as [->|N3]; cbn [andb]; [|exact (proj1 (H0 _ _ Hin))]. destruct (Nat.eqb_spec c' c) as [->|N4]; [congruence|exact (proj1 (H0 _ _ Hin))].
            -- destruct Hin as [Hin|[E|[]]]; [|congruence]. destruct (Nat.eqb_spec r' c) as [->|N3]; cbn [andb]; [|exact (proj1 (H0 _ _ Hin))]. destruct (Nat.eqb_spec c' r) as [->|N4]; [exact Sy|exact (proj1 (H0 _ _ Hin))].
          * destruct (Nat.eqb_spec c' r) as [->|N1]; [destruct (Nat.eqb_spec r' c) as [->|N2]|]; cbn [andb orb].
            -- reflexivity.
            -- destruct Hin as [Hin|[E|[]]]; [|congruence]. destruct (Nat.eqb_spec r c) as [->|N3]; cbn [andb]; [|exact (proj2 (H0 _ _ Hin))]. destruct (Nat.eqb_spec r' c) as [->|N4]; [congruence|exact (proj2 (H0 _ _ Hin))].
            -- destruct (Nat.eqb_spec c' c) as [->|N3]; cbn [andb]; [destruct (Nat.eqb_spec r' r) as [->|N4]; [exact Sy|]|]; (destruct Hin as [Hin|[E|[]]]; [exact (proj2 (H0 _ _ Hin))|congruence]).
        + intros q Hq'. unfold cov1. assert (q <> r * v + c) by nia. assert (q <> c * v + r) by nia. destruct (r =? c); unfold set_at; rewrite ?(proj2 (Nat.eqb_neq q (r * v + c))), ?(proj2 (Nat.eqb_neq q (c * v + r))) by auto; auto.
        + exists cov'. split; auto. split; auto. intros r' c' Hin. apply A1. rewrite <- app_assoc. exact Hin. }
    destruct (P (triangle v) [] (fun _ h => h) (fun _ h => match h with end) cov) as (cov' & E & A1 & A2); auto; [intros r c []|]. exists cov'. split; auto. split; auto.
    intros rr cc H1 H2. cbn [app] in A1. destruct (Nat.le_ge_cases rr cc) as [G|G].
    - refine (proj1 (A1 rr cc _)). apply in_triangle. lia.
    - refine (proj2 (A1 cc rr _)). apply in_triangle. lia.
  Qed.

  Lemma blocks_spec : forall l b0, length (blocks_of b0 l) = length l /\ forall b, b < length l -> nth b (blocks_of b0 l) (0, 0) = (match b with O => b0 | Datatypes.S k => nth k l 0 end, nth b l 0 - match b with O => b0 | Datatypes.S k => nth k l 0 end).
  Proof.
    induction l as [|x l IH]; intros b0; cbn [blocks_of length]; [split; auto; intros; lia|]. destruct (IH x) as (I1 & I2). split; auto. intros [|b] Hb; cbn [nth]; auto. rewrite I2 by lia. destruct b; auto.
  Qed.
  Lemma blocks_eq : forall l b, b < length l -> nth b (blocks_of 0 l) (0, 0) = (base l b, bsize l b).
  Proof. intros l b H. rewrite (proj2 (blocks_spec l 0)) by auto. reflexivity. Qed.
  Lemma in_blocks : forall l bv, In bv (blocks_of 0 l) -> exists b, b < length l /\ bv = (base l b, bsize l b).
  Proof. intros l bv H. apply (In_nth _ _ (0, 0)) in H. destruct H as (b & Hb & E). rewrite (proj1 (blocks_spec l 0)) in Hb. exists b. split; auto. rewrite <- E. symmetry. rewrite blocks_eq; auto. Qed.

  Theorem covariance_ok : forall covBlocks blockIndices, layout_ok blockIndices -> total blockIndices <= n -> length covBlocks = length blockIndices ->
    exists M out, setCholeskyFactor recip n Lp Li Lx perm = Ok M /\ computeCovariance sort M covBlocks blockIndices = Ok out /\ length out = length blockIndices /\
      forall b rr cc z, b < length blockIndices -> rr < bsize blockIndices b -> cc < bsize blockIndices b ->
        nth b out z (rr * bsize blockIndices b + cc) = X (pos (base blockIndices b + rr)) (pos (base blockIndices b + cc)).
  Proof.
    intros covs bi Lo Ht Hlen. exists Mof. rewrite set_factor.
    assert (Bn : forall b, b < length bi -> base bi b + bsize bi b <= n).
    { intros b Hb. rewrite <- base_S by auto. etransitivity; [|exact Ht]. rewrite total_base. apply base_mono; auto. }
    unfold computeCovariance. set (req := flat_map (fun bv : nat * nat => map (fun e : nat * nat => (fst bv + fst e, fst bv + snd e)) (triangle (snd bv))) (blocks_of 0 bi)).
    assert (In_req : forall b e, b < length bi -> In e (triangle (bsize bi b)) -> In (base bi b + fst e, base bi b + snd e) req).
    { intros b e Hb He. apply in_flat_map. exists (base bi b, bsize bi b). split; [rewrite <- blocks_eq by auto; apply nth_In; rewrite (proj1 (blocks_spec bi 0)); auto|]. apply in_map_iff. exists e. auto. }
    assert (Rq : forall p, In p req -> fst p < n /\ snd p < n).
    { intros p Hp. apply in_flat_map in Hp. destruct Hp as (bv & Hbv & Hp). apply in_blocks in Hbv. destruct Hbv as (b & Hb & ->). apply in_map_iff in Hp. destruct Hp as ([r c] & <- & He). apply in_triangle in He. cbn [fst snd] in *. specialize (Bn b Hb). lia. }
    destruct (run_ok req Rq) as (m & E & F). rewrite requests_ok in * by auto. cbn [bind] in *. rewrite E. cbn [bind].
    assert (Fw : forall bc, In bc (combine (blocks_of 0 bi) covs) -> exists cov', write_cov Mof m (fst bc) (snd bc) = Ok cov' /\
       forall rr cc, rr < snd (fst bc) -> cc < snd (fst bc) -> cov' (rr * snd (fst bc) + cc) = X (pos (fst (fst bc) + rr)) (pos (fst (fst bc) + cc))).
    { intros [bv cov] Hin. apply in_combine_l in Hin. apply in_blocks in Hin. destruct Hin as (b & Hb & ->). cbn [fst snd].
      destruct (write_ok m (base bi b, bsize bi b) cov) as (cov' & E' & A1 & _); cbn [fst snd] in *; [|auto|exists cov'; auto].
      intros e He. apply (F (base bi b + fst e, base bi b + snd e)). apply In_req; auto. }
    assert (G : forall l, (forall bc, In bc l -> exists cov', write_cov Mof m (fst bc) (snd bc) = Ok cov' /\
       forall rr cc, rr < snd (fst bc) -> cc < snd (fst bc) -> cov' (rr * snd (fst bc) + cc) = X (pos (fst (fst bc) + rr)) (pos (fst (fst bc) + cc))) ->
      exists out, mapM (fun bc => write_cov Mof m (fst bc) (snd bc)) l = Ok out /\ length out = length l /\
        forall b rr cc z z', b < length l -> let bv := fst (nth b l z') in rr < snd bv -> cc < snd bv -> nth b out z (rr * snd bv + cc) = X (pos (fst bv + rr)) (pos (fst bv + cc))).
    { induction l as [|bc l IH]; intros Hl; cbn [mapM].
      - exists []. split; auto. split; auto. intros; cbn in *; lia.
      - destruct (Hl bc) as (cov' & E' & A); [left; auto|]. rewrite E'. cbn [bind]. destruct IH as (out & Eo & Lo' & Ao); [intros; apply Hl; right; auto|]. rewrite Eo. cbn [bind]. exists (cov' :: out). split; auto. split; [cbn; lia|].
        intros [|b] rr cc z z' Hb; cbn [nth]; intros H1 H2; [apply A; auto|apply Ao; auto; cbn in Hb; lia]. }
    destruct (G _ Fw) as (out & Eo & Lo' & Ao). exists out. split; auto. split; auto. assert (Lc : length (combine (blocks_of 0 bi) covs) = length bi) by (rewrite combine_length, (proj1 (blocks_spec bi 0)), Hlen; lia).
    split; [lia|]. intros b rr cc z Hb H1 H2.
    specialize (Ao b rr cc z ((0, 0), z) ltac:(lia)). rewrite combine_nth in Ao by (rewrite (proj1 (blocks_spec bi 0)); auto). rewrite blocks_eq in Ao by auto. cbn [fst snd] in Ao. auto.
  Qed.

  (* the requested blocks of the inverse *)
  Lemma square_fill : forall (f : nat -> nat -> res K) (g : nat -> nat -> K) rows cols B, (forall i j, i < rows -> j < cols -> f i j = Ok (g i j)) ->
    exists B', fold_left (fun x e => do B <- x; do v <- f (fst e) (snd e); Ok (set_elem B (fst e) (snd e) v)) (square rows cols) (Ok B) = Ok B' /\ forall i j, i < rows -> j < cols -> B' i j = g i j.
  Proof.
    intros f g rows cols B H.
    assert (P : forall l B0, (forall e, In e l -> fst e < rows /\ snd e < cols) -> exists B', fold_left (fun x e => do B <- x; do v <- f (fst e) (snd e); Ok (set_elem B (fst e) (snd e) v)) l (Ok B0) = Ok B' /\
      forall i j, (In (i, j) l \/ B0 i j = g i j) -> B' i j = g i j).
    { induction l as [|[p q] l IH]; intros B0 Hl; cbn [fold_left].
      - exists B0. split; auto. intros i j [[]|E]; auto.
      - destruct (Hl (p, q)) as (H1 & H2); [left; auto|]. cbn [bind fst snd] in *. rewrite H by auto. cbn [bind]. destruct (IH (set_elem B0 p q (g p q))) as (B' & E & A); [intros; apply Hl; right; auto|]. exists B'. split; auto.
        intros i j Hij. apply A. unfold set_elem. destruct (Nat.eqb_spec i p) as [->|N1]; [destruct (Nat.eqb_spec j q) as [->|N2]|]; cbn [andb]; auto.
        + destruct Hij as [[E'|Hin]|E']; [congruence|left; auto|right; auto].
        + destruct Hij as [[E'|Hin]|E']; [congruence|left; auto|right; auto]. }
    destruct (P (square rows cols) B) as (B' & E & A). { intros [i j] He. apply in_square in He. auto. }
    exists B'. split; auto. intros i j Hi Hj. apply A. left. apply in_square. auto.
  Qed.

  Theorem blocks_ok : forall l blockIndices, l <> [] -> layout_ok l -> total l <= n -> (forall b, In b blockIndices -> fst b < length l /\ snd b < length l) ->
    exists M s, setCholeskyFactor recip n Lp Li Lx perm = Ok M /\ computeCovarianceBlocks sort M l blockIndices = Ok s /\ well_formed s /\ s_rbi s = l /\ s_cbi s = l /\
      (forall r c, get s r c <> None <-> In (r, c) blockIndices) /\
      forall r c i j, In (r, c) blockIndices -> i < bsize l r -> j < bsize l c -> blk s r c i j = X (pos (base l r + i)) (pos (base l c + j)).
  Proof.
    intros l bi Nl Lo Ht Hb. exists Mof. rewrite set_factor.
    assert (Bn : forall b, b < length l -> base l b + bsize l b <= n).
    { intros b H. rewrite <- base_S by auto. etransitivity; [|exact Ht]. rewrite total_base. apply base_mono; auto. }
    unfold computeCovarianceBlocks. destruct l as [|x0 l0]; [congruence|]. set (l := x0 :: l0) in *.
    (* allocation *)
    assert (P1 : forall bs s0, (forall b, In b bs -> fst b < length l /\ snd b < length l) -> good s0 l l -> exists s, fold_left (fun x b => do s <- x; do B <- blockAlloc s (fst b) (snd b); setBlock s (fst b) (snd b) B) bs (Ok s0) = Ok s /\ good s l l /\
      forall r c, get s r c <> None <-> (In (r, c) bs \/ get s0 r c <> None)).
    { induction bs as [|[a e] bs IH]; intros s0 Hs G; cbn [fold_left].
      - exists s0. split; auto. split; auto. intros r c. split; [auto|intros [[]|H]; auto].
      - destruct (Hs (a, e)) as (H1 & H2); [left; auto|]. cbn [bind fst snd] in *. rewrite (alloc_ok s0 l l a e G H1 H2). cbn [bind]. destruct (set_ok s0 l l a e (blk s0 a e) G H1 H2) as (s1 & E1 & G1 & X1). rewrite E1.
        destruct (IH s1) as (s & E & Gs & A); auto; [intros; apply Hs; right; auto|]. exists s. split; auto. split; auto. intros r c. rewrite A, X1.
        destruct (Nat.eqb_spec r a) as [->|N1]; [destruct (Nat.eqb_spec c e) as [->|N2]|]; cbn [andb].
        + split; intros _; [left; left; auto|right; discriminate].
        + split; [intros [H|H]; [left; right; auto|right; auto]|intros [[E'|H]|H]; [congruence|left; auto|right; auto]].
        + split; [intros [H|H]; [left; right; auto|right; auto]|intros [[E'|H]|H]; [congruence|left; auto|right; auto]]. }
    destruct (P1 bi (fresh l l) Hb (proj1 (fresh_good l l Lo Lo))) as (s0 & E0 & G0 & A0). rewrite E0. cbn [bind].
    pose proof (proj2 (@fresh_good K l l Lo Lo)) as FN.
    set (req := flat_map (fun b : nat * nat => map (fun e : nat * nat => (base l (fst b) + fst e, base l (snd b) + snd e)) (square (bsize l (fst b)) (bsize l (snd b)))) bi).
    assert (Rq : forall p, In p req -> fst p < n /\ snd p < n).
    { intros p Hp. apply in_flat_map in Hp. destruct Hp as ([r c] & Hrc & Hp). apply in_map_iff in Hp. destruct Hp as ([i j] & <- & He). apply in_square in He. cbn [fst snd] in *. destruct (Hb _ Hrc) as (H1 & H2). cbn [fst snd] in *. pose proof (Bn r H1). pose proof (Bn c H2). lia. }
    destruct (run_ok req Rq) as (m & E & F). rewrite requests_ok in * by auto. cbn [bind] in *. rewrite E. cbn [bind].
    assert (In_req : forall r c i j, In (r, c) bi -> i < bsize l r -> j < bsize l c -> In (base l r + i, base l c + j) req).
    { intros r c i j H1 H2 H3. apply in_flat_map. exists (r, c). split; auto. apply in_map_iff. exists (i, j). split; auto. apply in_square. auto. }
    assert (P2 : forall bs s1, (forall b, In b bs -> In b bi) -> good s1 l l -> (forall r c, get s1 r c <> None <-> In (r, c) bi) -> exists s, fold_left (fun x b => do s <- x; do B <- blockAlloc s (fst b) (snd b);
        do B' <- fold_left (fun x e => do B <- x; do v <- fetch Mof m (base l (fst b) + fst e) (base l (snd b) + snd e); Ok (set_elem B (fst e) (snd e) v)) (square (bsize l (fst b)) (bsize l (snd b))) (Ok B);
        setBlock s (fst b) (snd b) B') bs (Ok s1) = Ok s /\ good s l l /\ (forall r c, get s r c <> None <-> In (r, c) bi) /\
      forall r c, (In (r, c) bs \/ (forall i j, i < bsize l r -> j < bsize l c -> blk s1 r c i j = X (pos (base l r + i)) (pos (base l c + j)))) -> forall i j, i < bsize l r -> j < bsize l c -> blk s r c i j = X (pos (base l r + i)) (pos (base l c + j))).
    { induction bs as [|[a e] bs IH]; intros s1 Hs G A; cbn [fold_left].
      - exists s1. split; auto. split; auto. split; auto. intros r c [[]|H]; auto.
      - pose proof (Hs (a, e) (or_introl eq_refl)) as Hae. destruct (Hb _ Hae) as (H1 & H2). cbn [bind fst snd] in *. rewrite (alloc_ok s1 l l a e G H1 H2). cbn [bind].
        destruct (square_fill (fun i j => fetch Mof m (base l a + i) (base l e + j)) (fun i j => X (pos (base l a + i)) (pos (base l e + j))) (bsize l a) (bsize l e) (blk s1 a e)) as (B' & EB & AB).
        { intros i j Hi Hj. apply (F (base l a + i, base l e + j)). apply In_req; auto. }
        rewrite EB. cbn [bind]. destruct (set_ok s1 l l a e B' G H1 H2) as (s2 & E2 & G2 & X2). rewrite E2.
        assert (A2 : forall r c, get s2 r c <> None <-> In (r, c) bi).
        { intros r c. rewrite X2. destruct (Nat.eqb_spec r a) as [->|N1]; [destruct (Nat.eqb_spec c e) as [->|N2]|]; cbn [andb]; auto. split; [auto|discriminate]. }
        destruct (IH s2) as (s & Es & Gs & As & Bs); auto; [intros; apply Hs; right; auto|]. exists s. split; auto. split; auto. split; auto.
        intros r c H i j Hi Hj. apply Bs; auto. assert (Bl : blk s2 r c = if (r =? a) && (c =? e) then B' else blk s1 r c) by (unfold blk; rewrite X2; destruct ((r =? a) && (c =? e)); auto). rewrite Bl.
        destruct (Nat.eqb_spec r a) as [->|N1]; [destruct (Nat.eqb_spec c e) as [->|N2]|]; cbn [andb].
        + right. auto.
        + destruct H as [[E'|H]|H]; [congruence|left; auto|right; auto].
        + destruct H as [[E'|H]|H]; [congruence|left; auto|right; auto]. }
    destruct (P2 bi s0) as (s & Es & Gs & As & Bs); auto.
    { intros r c. rewrite A0. split; [intros [H|H]; auto; rewrite FN in H; congruence|auto]. }
    exists s. split; auto. split; [exact Es|]. destruct Gs as (W & _ & E1 & E2). split; [exact W|]. split; [exact E1|]. split; [exact E2|]. split; [exact As|]. intros r c i j H. apply Bs. auto.
  Qed.
End Proofs.
