(** * Proofs about the marginalizer *)
From Coq Require Import Arith Lia List ZArith Bool Reals Lra Ring.
From Verif Require Import Lib_Ring Lib_Real Lib_Res SBM_Model SBM_Spec SBM_Proofs LinSolve_Model LinSolve_Spec LinSolve_Proofs LinSolve_Proofs2 Marg_Model Marg_Spec.
Import ListNotations.
Local Open Scope nat_scope.

Lemma list_sum_S : forall n l, list_sum (n :: l) = n + list_sum l.
Proof. reflexivity. Qed.
Lemma ends_length : forall dims a, length (ends a dims) = length dims.
Proof. induction dims; intros; cbn; auto. Qed.
Lemma ends_layout : forall dims a, layout_ok (ends a dims).
Proof.
  induction dims as [|d ds IH]; intros a b H; cbn [ends] in *; [cbn in H; lia|]. destruct b as [|b].
  - destruct ds; cbn in *; lia.
  - cbn [nth]. apply (IH (a + d) b). cbn [length] in H. lia.
Qed.
Lemma ends_total : forall dims, total (ends 0 dims) = list_sum dims.
Proof.
  assert (G : forall dims a d0, last (ends a dims) d0 = match dims with [] => d0 | _ => a + list_sum dims end).
  { induction dims as [|d ds IH]; intros a d0; auto. cbn [ends]. destruct ds as [|d' ds]; [cbn; lia|]. change (last (a + d :: ends (a + d) (d' :: ds)) d0) with (last (ends (a + d) (d' :: ds)) d0).
    rewrite IH. cbn. lia. }
  intros dims. unfold total. rewrite G. destruct dims; auto.
Qed.
Lemma restore_assign : forall dvs i c, restore dvs (assign i c dvs) = dvs.
Proof. induction dvs as [|d ds IH]; intros i c; cbn [assign restore v_id v_dim]; auto. rewrite IH. destruct d; auto. Qed.

Section Ring.
  Context {K : Type} {RK : CRing K}.
  Add Ring Kring_marg : (@kring K RK).
  Lemma restore_assign_rows : forall (ets : list (met K)) c, restore_rows ets (assign_rows c ets) = ets.
  Proof. induction ets as [|d ds IH]; intros c; cbn [assign_rows restore_rows t_id t_term]; auto. rewrite IH. destruct d; auto. Qed.

  Lemma assemble_ok : forall (diffs : list (nat * vec K)) index size y, index + list_sum (map fst diffs) <= size ->
    exists z, assemble diffs index size y = Ok z /\ forall i, z i = if (index <=? i) && (i <? index + list_sum (map fst diffs)) then joined diffs (i - index) else y i.
  Proof.
    induction diffs as [|[n v] ds IH]; intros index size y H; cbn [assemble].
    - exists y. split; auto. intros i. change (list_sum (map fst [])) with 0. destruct (Nat.leb_spec index i); [rewrite (proj2 (Nat.ltb_ge i (index + 0))) by lia|]; reflexivity.
    - cbn [map fst] in *. rewrite list_sum_S in *. rewrite (proj2 (Nat.leb_le (index + n) size)) by lia.
      destruct (IH (index + n) size (fun i => if (index <=? i) && (i <? index + n) then v (i - index) else y i)) as (z & E & V); [lia|]. exists z. split; auto. intros i. rewrite V. cbn [joined].
      destruct (Nat.leb_spec (index + n) i); cbn [andb].
      + destruct (Nat.ltb_spec i (index + n + list_sum (map fst ds))).
        * rewrite (proj2 (Nat.leb_le index i)) by lia. rewrite (proj2 (Nat.ltb_lt i (index + (n + list_sum (map fst ds))))) by lia. cbn [andb].
          rewrite (proj2 (Nat.ltb_ge (i - index) n)) by lia. f_equal. lia.
        * rewrite (proj2 (Nat.ltb_ge i (index + (n + list_sum (map fst ds))))) by lia. rewrite (proj2 (Nat.ltb_ge i (index + n))) by lia. rewrite !andb_false_r. auto.
      + rewrite (proj2 (Nat.ltb_lt i (index + n))) by lia. rewrite (proj2 (Nat.ltb_lt i (index + (n + list_sum (map fst ds))))) by lia. destruct (Nat.leb_spec index i); cbn [andb]; auto.
        rewrite (proj2 (Nat.ltb_lt (i - index) n)) by lia. auto.
  Qed.

  (* what a call that ends without exception has done *)
  Lemma marg_inv : forall qr inverse (w w' : world K) remove numTop p cov, marginalize qr inverse w remove numTop = Ok (w', Some (p, cov)) ->
    w' = w /\ w_cols w <= w_rows w /\ (0 < numTop -> numTop <= w_cols w) /\ skipn (Z.to_nat remove) (w_dvs w) <> [] /\ p_dvs p = skipn (Z.to_nat remove) (w_dvs w) /\
    let m := removed_dim w remove in
    let S := dq_build (w_layout w) (w_terms w) (eval_errors (w_terms w) 0 (fun _ => k0)) (dq_new (w_rows w) (w_cols w) (fun _ => k0) false) in
    let QF := qr (w_rows w) (w_cols w) (dq_J S) in
    let Rm := fun r c => if r <=? c then snd QF r c else k0 in
    p_R p = (fun i j => Rm (m + i) (m + j)) /\ p_d p = (fun i => mvmul (w_rows w) (mtr (fst QF)) (dq_e S) (m + i)) /\ p_dim p = w_cols w - m /\
    cov = mmul (w_cols w) (inverse (w_cols w) Rm) (mtr (inverse (w_cols w) Rm)).
  Proof.
    intros qr inverse w w' remove numTop p cov H. unfold marginalize in H. rewrite ends_total in H. cbv zeta in H.
    fold (w_layout w) in H. fold (w_terms w) in H. fold (w_cols w) in H. fold (w_rows w) in H. fold (removed_dim w remove) in H.
    destruct (negb _ || negb _) in H; [discriminate|]. destruct (Nat.ltb_spec (w_rows w) (w_cols w)) as [L|L]; [discriminate|].
    destruct ((0 <? numTop) && (w_cols w <? numTop)) eqn:T; [discriminate|]. destruct (skipn (Z.to_nat remove) (w_dvs w)) as [|d ds] eqn:Sk; [discriminate|].
    injection H as <- <- <-. cbn [w_dvs w_ets p_R p_d p_dim p_dvs]. rewrite restore_assign, restore_assign_rows. split; [destruct w; auto|]. split; auto.
    split. { intros N. apply Nat.ltb_lt in N. rewrite N in T. cbn [andb] in T. apply Nat.ltb_ge in T. auto. }
    split; [discriminate|]. split; auto.
  Qed.

  (** the cost splits *)
  Lemma norm_q : forall n (Q : mat K) v, meq n n (mmul n Q (mtr Q)) mid -> vdot n (mvmul n (mtr Q) v) (mvmul n (mtr Q) v) = vdot n v v.
  Proof.
    intros n Q v H. rewrite vdot_mvmul. apply vdot_ext; [|apply veq_refl]. intros i Hi. change (mtr (mtr Q)) with Q. rewrite <- mvmul_mmul.
    transitivity (mvmul n mid v i); [|apply mvmul_id; auto]. unfold mvmul. apply ksum_ext. intros j Hj. rewrite H by auto. auto.
  Qed.
  Lemma cost_qr : forall rows cols (J Q F : mat K) (e b x : vec K), qr_of rows cols J Q F -> (forall r, r < rows -> b r = kopp (e r)) ->
    let Rm := fun r c => if r <=? c then F r c else k0 in let d := mvmul rows (mtr Q) b in
    cost rows cols J e x = ksum rows (fun r => kmul (ksub (mvmul cols Rm x r) (d r)) (ksub (mvmul cols Rm x r) (d r))).
  Proof.
    intros rows cols J Q F e b x (HJ & QtQ & QQt) Hb Rm d. set (v := fun r => kadd (mvmul cols J x r) (e r)). change (vdot rows v v = vdot rows (fun r => ksub (mvmul cols Rm x r) (d r)) (fun r => ksub (mvmul cols Rm x r) (d r))).
    rewrite <- (norm_q rows Q v QQt).
    assert (V : veq rows (mvmul rows (mtr Q) v) (fun r => ksub (mvmul cols Rm x r) (d r))).
    { intros r Hr. unfold v.
      transitivity (ksub (mvmul rows (mtr Q) (mvmul rows Q (mvmul cols Rm x)) r) (d r)).
      - change (ksum rows (fun k => kmul (mtr Q r k) (kadd (mvmul cols J x k) (e k))) = ksub (ksum rows (fun k => kmul (mtr Q r k) (mvmul rows Q (mvmul cols Rm x) k))) (ksum rows (fun k => kmul (mtr Q r k) (b k)))).
        rewrite <- ksum_sub. apply ksum_ext. intros k Hk. rewrite Hb by auto.
        assert (E : mvmul cols J x k = mvmul rows Q (mvmul cols Rm x) k).
        { rewrite <- mvmul_mmul. unfold mvmul. apply ksum_ext. intros q Hq. rewrite HJ by auto. auto. }
        rewrite E. ring.
      - f_equal. rewrite <- mvmul_mmul. transitivity (mvmul rows mid (mvmul cols Rm x) r); [|apply mvmul_id; auto]. set (y := mvmul cols Rm x). unfold mvmul. apply ksum_ext. intros k Hk. rewrite QtQ by auto. auto. }
    apply vdot_ext; exact V.
  Qed.
  (* rows m .. n-1 of an upper triangular matrix do not see the first m unknowns, rows from n on are zero *)
  Lemma upper_low : forall n m (F : mat K) x1 y i, m <= n -> i < n - m -> mvmul n (fun r c => if r <=? c then F r c else k0) (both m x1 y) (m + i) = mvmul (n - m) (fun i j => if m + i <=? m + j then F (m + i) (m + j) else k0) y i.
  Proof.
    intros n m F x1 y i L Hi. unfold mvmul. replace n with (m + (n - m)) at 1 by lia. rewrite ksum_split. rewrite ksum_zero.
    - rewrite k_add_0_l. apply ksum_ext. intros j Hj. unfold both. rewrite (proj2 (Nat.ltb_ge (m + j) m)) by lia. replace (m + j - m) with j by lia. auto.
    - intros j Hj. rewrite (proj2 (Nat.leb_gt (m + i) j)) by lia. ring.
  Qed.
  Lemma upper_zero : forall n (F : mat K) x r, n <= r -> mvmul n (fun r c => if r <=? c then F r c else k0) x r = k0.
  Proof. intros n F x r H. unfold mvmul. apply ksum_zero. intros j Hj. rewrite (proj2 (Nat.leb_gt r j)) by lia. ring. Qed.
  Lemma upper_top : forall n m (F : mat K) x1 y i, m <= n -> mvmul n (fun r c => if r <=? c then F r c else k0) (both m x1 y) i =
    kadd (mvmul m (fun r c => if r <=? c then F r c else k0) x1 i) (ksum (n - m) (fun j => kmul (if i <=? m + j then F i (m + j) else k0) (y j))).
  Proof.
    intros n m F x1 y i L. unfold mvmul. replace n with (m + (n - m)) at 1 by lia. rewrite ksum_split. f_equal; apply ksum_ext; intros j Hj; unfold both.
    - rewrite (proj2 (Nat.ltb_lt j m)) by lia. auto.
    - rewrite (proj2 (Nat.ltb_ge (m + j) m)) by lia. replace (m + j - m) with j by lia. auto.
  Qed.

  (** the prior's Jacobian is R times the Jacobians of the differences *)
  Lemma prior_jac_ok : forall (p : prior K) Ms deltas col i, map fst Ms = map fst deltas ->
    apply_jacobians (prior_jacobians p col Ms) deltas i = ksum (list_sum (map fst Ms)) (fun j => kmul (p_R p i (col + j)) (joined (apply_M Ms deltas) j)).
  Proof.
    intros p. induction Ms as [|[n M] Ms IH]; intros [|[n' v] ds] col i E; cbn [map fst] in E; try discriminate; [reflexivity|]. injection E as <- E.
    cbn [prior_jacobians apply_jacobians apply_M joined map fst]. rewrite list_sum_S. rewrite IH by auto. rewrite ksum_split. f_equal.
    - rewrite mvmul_mmul. unfold mvmul at 1. apply ksum_ext. intros j Hj. rewrite (proj2 (Nat.ltb_lt j n)) by auto. auto.
    - apply ksum_ext. intros j Hj. rewrite (proj2 (Nat.ltb_ge (n + j) n)) by lia. replace (n + j - n) with j by lia. rewrite Nat.add_assoc. auto.
  Qed.

  (** the covariance is the inverse of J^T J *)
  Lemma cov_ok : forall rows cols (J Q F X : mat K), cols <= rows -> qr_of rows cols J Q F -> two_sided_inverse cols (fun r c => if r <=? c then F r c else k0) X ->
    two_sided_inverse cols (mmul rows (mtr J) J) (mmul cols X (mtr X)).
  Proof.
    intros rows cols J Q F X L (HJ & QtQ & QQt) (RX & XR). set (Rm := fun r c => if r <=? c then F r c else k0) in *.
    assert (E : forall p q, p < cols -> q < cols -> mmul rows (mtr J) J p q = mmul cols (mtr Rm) Rm p q).
    { intros p q Hp Hq. transitivity (mmul rows (mtr (mmul rows Q Rm)) (mmul rows Q Rm) p q).
      - unfold mmul at 1 2. apply ksum_ext. intros r Hr. unfold mtr. rewrite !HJ by auto. auto.
      - transitivity (mmul rows (mmul rows (mtr Rm) (mtr Q)) (mmul rows Q Rm) p q); [unfold mmul at 1 3; apply ksum_ext; intros; rewrite mmul_tr; auto|].
        rewrite mmul_assoc_pt. transitivity (mmul rows (mtr Rm) (mmul rows (mmul rows (mtr Q) Q) Rm) p q).
        { unfold mmul at 1 3. apply ksum_ext. intros k Hk. rewrite mmul_assoc_pt. auto. }
        transitivity (mmul rows (mtr Rm) Rm p q).
        { unfold mmul at 1 4. apply ksum_ext. intros k Hk. f_equal. transitivity (mmul rows mid Rm k q); [|apply (mmul_id_l rows cols Rm k q); auto]. unfold mmul at 1 3. apply ksum_ext. intros j Hj. rewrite QtQ by auto. auto. }
        unfold mmul. replace rows with (cols + (rows - cols)) by lia. rewrite ksum_split. rewrite (ksum_zero (rows - cols)); [ring|]. intros j Hj. unfold mtr, Rm. rewrite (proj2 (Nat.leb_gt (cols + j) p)) by lia. ring. }
    split; intros p q Hp Hq.
    - transitivity (mmul cols (mmul cols (mtr Rm) Rm) (mmul cols X (mtr X)) p q); [unfold mmul at 1 4; apply ksum_ext; intros; rewrite E; auto|].
      rewrite mmul_assoc_pt. transitivity (mmul cols (mtr Rm) (mtr X) p q).
      + unfold mmul at 1 4. apply ksum_ext. intros k Hk. f_equal. rewrite <- mmul_assoc_pt. transitivity (mmul cols mid (mtr X) k q); [|apply (mmul_id_l cols cols (mtr X) k q); auto].
        unfold mmul at 1 3. apply ksum_ext. intros j Hj. rewrite RX by auto. auto.
      + rewrite <- mmul_tr. unfold mtr. rewrite XR by auto. apply delta_sym.
    - transitivity (mmul cols (mmul cols X (mtr X)) (mmul cols (mtr Rm) Rm) p q); [unfold mmul at 1 4; apply ksum_ext; intros; rewrite E; auto|].
      rewrite mmul_assoc_pt. transitivity (mmul cols X Rm p q); [|apply XR; auto].
      unfold mmul at 1 4. apply ksum_ext. intros k Hk. f_equal. rewrite <- mmul_assoc_pt. transitivity (mmul cols mid Rm k q); [|apply (mmul_id_l cols cols Rm k q); auto].
      unfold mmul at 1 3. apply ksum_ext. intros j Hj. rewrite <- mmul_tr. unfold mtr. rewrite RX by auto. f_equal. apply delta_sym.
  Qed.
End Ring.

Lemma c50_restored : forall (K : Type) (RK : CRing K) qr inverse (w w' : world K) remove numTop p cov, marginalize qr inverse w remove numTop = Ok (w', Some (p, cov)) -> w' = w /\ p_dvs p = skipn (Z.to_nat remove) (w_dvs w).
Proof. intros K RK qr inverse w w' remove numTop p cov H. destruct (marg_inv _ _ _ _ _ _ _ _ H) as (E & _ & _ & _ & E2 & _). auto. Qed.
Lemma c50_jacobian : forall (K : Type) (RK : CRing K) (p : prior K) Ms deltas i, map fst Ms = map fst deltas -> list_sum (map fst Ms) = p_dim p ->
  apply_jacobians (prior_jacobians p 0 Ms) deltas i = mvmul (p_dim p) (p_R p) (joined (apply_M Ms deltas)) i.
Proof. intros K RK p Ms deltas i E S. rewrite prior_jac_ok by auto. rewrite S. reflexivity. Qed.
