(** * The prior is the minimum of the cost over the removed variables *)
From Coq Require Import Arith Lia List ZArith Bool Reals Lra Ring.
From Verif Require Import Lib_Ring Lib_Real Lib_Res SBM_Model SBM_Spec SBM_Proofs LinSolve_Model LinSolve_Spec LinSolve_Proofs LinSolve_Proofs2 Marg_Model Marg_Spec Marg_Proofs.
Import ListNotations.
Local Open Scope nat_scope.

Notation upper F := (fun r c => if r <=? c then F r c else k0).

(** ** triangular systems *)
Lemma back_step : forall m (F : mat R) (t : vec R), (forall i, i < m -> F i i <> 0%R) -> forall k, k <= m -> exists x, forall i, m - k <= i -> i < m -> mvmul m (upper F) x i = t i.
Proof.
  intros m F t D. induction k as [|k IH]; intros H; [exists (fun _ => 0%R); intros; lia|]. destruct IH as (x & Hx); [lia|]. set (p := m - Datatypes.S k).
  set (s := ksum m (fun j => kmul (if p <? j then F p j else k0) (x j)) : R). exists (fun j => if j =? p then ((t p - s) / F p p)%R else x j). intros i Hi1 Hi2. destruct (Nat.eq_dec i p) as [->|N].
  - unfold mvmul. transitivity (kadd (ksum m (fun j => kmul (if p <? j then F p j else k0) (x j))) (ksum m (fun j => kmul (delta j p) (kmul (F p p) ((t p - s) / F p p)%R)))).
    + rewrite <- ksum_add. apply ksum_ext. intros j Hj. destruct (Nat.eqb_spec j p) as [->|Nj].
      * rewrite delta_refl, Nat.leb_refl, Nat.ltb_irrefl. cbn. ring.
      * rewrite delta_neq by auto. destruct (Nat.leb_spec p j), (Nat.ltb_spec p j); try lia; cbn; ring.
    + fold s. rewrite (ksum_single _ p); try lia. * rewrite delta_refl. cbn. field. apply D. lia. * intros j Hj Nj. rewrite delta_neq by auto. cbn. ring.
  - rewrite <- (Hx i) by lia. unfold mvmul. apply ksum_ext. intros j Hj. destruct (Nat.eqb_spec j p) as [->|Nj]; auto. rewrite (proj2 (Nat.leb_gt i p)) by lia. cbn. ring.
Qed.
Lemma back_sub : forall m (F : mat R) (t : vec R), (forall i, i < m -> F i i <> 0%R) -> exists x, forall i, i < m -> mvmul m (upper F) x i = t i.
Proof. intros m F t D. destruct (back_step m F t D m (le_n _)) as (x & H). exists x. intros i Hi. apply H; lia. Qed.
Lemma first_zero : forall m (F : mat R), (forall i, i < m -> F i i <> 0%R) \/ exists p, p < m /\ F p p = 0%R /\ forall i, i < p -> F i i <> 0%R.
Proof.
  induction m as [|m IH]; intros F; [left; intros; lia|]. destruct (IH F) as [H|(p & H1 & H2 & H3)].
  - destruct (Req_dec (F m m) 0) as [E|E]; [right; exists m; auto|left]. intros i Hi. destruct (Nat.eq_dec i m); subst; auto. apply H. lia.
  - right. exists p. repeat split; auto.
Qed.
Lemma null_vector : forall m (F : mat R) p, p < m -> F p p = 0%R -> (forall i, i < p -> F i i <> 0%R) -> exists x, x p = 1%R /\ forall i, mvmul m (upper F) x i = 0%R.
Proof.
  intros m F p Hp Z D. destruct (back_sub p F (fun i => (- F i p)%R) D) as (x & Hx). exists (fun j => if j <? p then x j else if j =? p then 1%R else 0%R). split; [rewrite Nat.ltb_irrefl, Nat.eqb_refl; auto|].
  intros i. unfold mvmul. replace m with (p + (m - p)) by lia. rewrite ksum_split. replace (m - p) with (Datatypes.S (m - p - 1)) by lia. rewrite ksum_S_l. rewrite (ksum_zero (m - p - 1)).
  2: { intros j Hj. rewrite (proj2 (Nat.ltb_ge (p + Datatypes.S j) p)) by lia. rewrite (proj2 (Nat.eqb_neq (p + Datatypes.S j) p)) by lia. cbn. ring. }
  rewrite Nat.add_0_r, Nat.ltb_irrefl, Nat.eqb_refl. destruct (Nat.lt_ge_cases i p) as [L|L].
  - rewrite (proj2 (Nat.leb_le i p)) by lia. transitivity (mvmul p (upper F) x i + F i p)%R; [|rewrite Hx by auto; ring]. unfold mvmul. cbn [kadd RRing]. transitivity (ksum p (fun j => kmul (if i <=? j then F i j else k0) (x j)) + F i p)%R; auto.
    rewrite (ksum_ext p _ (fun j => kmul (if i <=? j then F i j else k0) (x j))); [cbn; ring|]. intros j Hj. rewrite (proj2 (Nat.ltb_lt j p)) by auto. auto.
  - rewrite ksum_zero. 2: { intros j Hj. rewrite (proj2 (Nat.leb_gt i j)) by lia. cbn. ring. }
    destruct (Nat.leb_spec i p); [replace i with p by lia; rewrite Z|]; cbn; ring.
Qed.
(* independent columns: no zero on the diagonal of R *)
Lemma diag_nonzero : forall rows cols m (J Q F : mat R), m <= cols -> qr_of rows cols J Q F -> independent rows m J -> forall i, i < m -> F i i <> 0%R.
Proof.
  intros rows cols m J Q F L (HJ & _) Ind. destruct (first_zero m F) as [H|(p & H1 & H2 & H3)]; auto. exfalso. destruct (null_vector m F p H1 H2 H3) as (x & X1 & X0).
  assert (E : x p = 0%R); [|rewrite E in X1; lra]. apply Ind; auto. intros r Hr. transitivity (mvmul rows Q (mvmul m (upper F) x) r).
  - rewrite <- mvmul_mmul. unfold mvmul. apply ksum_ext. intros c Hc. rewrite HJ by lia. auto.
  - unfold mvmul at 1. apply (@ksum_zero R RRing). intros k Hk. rewrite X0. cbn. ring.
Qed.

(** ** the cost in three parts *)
Lemma ksum_nonneg : forall n (f : nat -> R), (forall i, i < n -> (0 <= f i)%R) -> (0 <= ksum n f)%R.
Proof. induction n as [|n IH]; intros f H; cbn [ksum]; [cbn; lra|]. assert (0 <= ksum n f)%R by (apply IH; auto). specialize (H n (Nat.lt_succ_diag_r n)). cbn. lra. Qed.
Lemma firstn_skipn_sum : forall (dvs : list mdv) k, list_sum (map v_dim dvs) = list_sum (map v_dim (firstn k dvs)) + list_sum (map v_dim (skipn k dvs)).
Proof. intros dvs k. rewrite <- (firstn_skipn k dvs) at 1. rewrite map_app, list_sum_app. auto. Qed.
Lemma w_J_ok : forall {K} {RK : CRing K} (w : world K) e x, w_ok w -> meq (w_rows w) (w_cols w) (dq_J (dq_build (w_layout w) (w_terms w) e x)) (w_J w).
Proof. intros K RK w e x W r q Hr Hq. apply dq_build_ok; auto. - apply ends_layout. - unfold w_layout. rewrite ends_total. exact Hq. Qed.

Lemma c50_prior : forall qr inverse (w w' : world R) remove numTop p cov, marginalize qr inverse w remove numTop = Ok (w', Some (p, cov)) ->
  w_ok w -> qr_good qr w -> independent (w_rows w) (removed_dim w remove) (w_J w) ->
  exists c, forall diffs, differences (skipn (Z.to_nat remove) (w_dvs w)) diffs -> exists v, prior_cost p diffs = Ok v /\
    is_minimum (fun x1 => cost (w_rows w) (w_cols w) (w_J w) (w_e w) (both (removed_dim w remove) x1 (joined diffs))) (v + c).
Proof.
  intros qr inverse w w' remove numTop p cov H W Hq Ind. destruct (marg_inv _ _ _ _ _ _ _ _ H) as (_ & RC & _ & _ & _ & H'). cbv zeta in H'.
  set (m := removed_dim w remove) in *. set (rows := w_rows w) in *. set (cols := w_cols w) in *.
  match type of H' with context [qr rows cols ?A] => set (J := A) in *; set (QF := qr rows cols J) in * end. destruct H' as (ER & Ed & En & _).
  assert (MJ : meq rows cols J (w_J w)) by (apply w_J_ok; auto). pose proof (Hq _ MJ) as Q. fold rows cols QF in Q.
  assert (Q2 : qr_of rows cols (w_J w) (fst QF) (snd QF)). { destruct Q as (Q1 & Q2). split; auto. intros r q Hr Hc. rewrite <- MJ by auto. apply Q1; auto. }
  set (b := dq_e (dq_build (w_layout w) (w_terms w) (eval_errors (w_terms w) 0 (fun _ => k0)) (dq_new rows cols (fun _ => k0) false))) in *.
  assert (Hb : forall r, r < rows -> b r = kopp (w_e w r)). { intros r Hr. unfold b. cbn [dq_build dq_e]. rewrite eval_errors_ok by (try lia; exact Hr). rewrite Nat.sub_0_r. auto. }
  assert (Lm : m <= cols) by (unfold m, cols, removed_dim, w_cols; rewrite (firstn_skipn_sum (w_dvs w) (Z.to_nat remove)); lia).
  pose proof (diag_nonzero rows cols m _ _ _ Lm Q2 Ind) as D. set (F := snd QF) in *. set (d := mvmul rows (mtr (fst QF)) b) in *.
  exists (ksum (rows - cols) (fun i => d (cols + i)%nat * d (cols + i)%nat)%R). intros diffs Hd.
  assert (Sum : list_sum (map fst diffs) = cols - m). { rewrite Hd. unfold cols, m, removed_dim, w_cols. rewrite (firstn_skipn_sum (w_dvs w) (Z.to_nat remove)). lia. }
  destruct (assemble_ok diffs 0 (cols - m) (fun _ => 0%R)) as (z & Ez & Vz); [lia|]. unfold prior_cost, prior_error. rewrite En. change (@k0 R RRing) with 0%R. rewrite Ez. cbn [bind]. eexists. split; [reflexivity|].
  set (y := joined diffs) in *.
  assert (Vz' : forall i, i < cols - m -> z i = y i). { intros i Hi. rewrite Vz. rewrite Sum. rewrite (proj2 (Nat.ltb_lt i (0 + (cols - m)))) by lia. cbn [Nat.leb andb]. rewrite Nat.sub_0_r. auto. }
  assert (C : forall x1, cost rows cols (w_J w) (w_e w) (both m x1 y) =
    (ksum m (fun i => (mvmul cols (upper F) (both m x1 y) i - d i) * (mvmul cols (upper F) (both m x1 y) i - d i)) +
     (vdot (cols - m)%nat (fun i => kopp (ksub (p_d p i) (mvmul (cols - m)%nat (p_R p) z i))) (fun i => kopp (ksub (p_d p i) (mvmul (cols - m)%nat (p_R p) z i))) + ksum (rows - cols)%nat (fun i => d (cols + i)%nat * d (cols + i)%nat)))%R).
  { intros x1. rewrite (cost_qr rows cols (w_J w) (fst QF) F (w_e w) b (both m x1 y) Q2 Hb). cbv zeta. fold d. replace rows with (m + ((cols - m) + (rows - cols))) at 1 by lia. rewrite !ksum_split. cbn [kadd RRing]. f_equal. f_equal.
    - unfold vdot. apply ksum_ext. intros i Hi. rewrite upper_low by auto. rewrite Ed, ER. replace (mvmul (cols - m) (fun i j => if m + i <=? m + j then F (m + i) (m + j) else k0) z i) with (mvmul (cols - m) (fun i j => if m + i <=? m + j then F (m + i) (m + j) else k0) y i) by (unfold mvmul; apply ksum_ext; intros j Hj; rewrite Vz' by auto; auto). cbn. ring.
    - apply ksum_ext. intros i Hi. replace (m + (cols - m + i)) with (cols + i) by lia. rewrite upper_zero by lia. cbn. ring. }
  set (pc := vdot (cols - m)%nat (fun i => kopp (ksub (p_d p i) (mvmul (cols - m)%nat (p_R p) z i))) (fun i => kopp (ksub (p_d p i) (mvmul (cols - m)%nat (p_R p) z i)))) in *. set (rest := ksum (rows - cols) (fun i => (d (cols + i)%nat * d (cols + i)%nat)%R)) in *.
  split.
  - intros x1. rewrite C. assert (G : (0 <= ksum m (fun i => (mvmul cols (upper F) (both m x1 y) i - d i) * (mvmul cols (upper F) (both m x1 y) i - d i)))%R) by (apply ksum_nonneg; intros; apply Rle_0_sqr). cbn in *. lra.
  - destruct (back_sub m F (fun i => (d i - ksum (cols - m)%nat (fun j => kmul (if (i <=? m + j)%nat then F i (m + j)%nat else k0) (y j)))%R) D) as (x1 & Hx). exists x1. rewrite C.
    rewrite (ksum_zero m); [cbn; ring|]. intros i Hi. rewrite upper_top by auto. rewrite Hx by auto. cbn [kadd RRing k0]. ring.
Qed.

(** ** the covariance *)
Lemma upper_invertible : forall n (F : mat R), (forall i, i < n -> F i i <> 0%R) -> exists X, two_sided_inverse n (upper F) X.
Proof.
  intros n F D.
  assert (G : forall k, k <= n -> exists X : mat R, forall i q, i < n -> q < k -> mmul n (upper F) X i q = delta i q).
  { induction k as [|k IH]; intros Hk; [exists (fun _ _ => 0%R); intros; lia|]. destruct IH as (X & HX); [lia|]. destruct (back_sub n F (fun i => delta i k) D) as (x & Hx).
    exists (fun i q => if q =? k then x i else X i q). intros i q Hi Hq. unfold mmul. destruct (Nat.eqb_spec q k) as [->|Nq]; [apply (Hx i Hi)|apply HX; lia]. }
  destruct (G n (le_n _)) as (X & HX). exists X.
  assert (Inj : forall v : vec R, (forall i, i < n -> mvmul n (upper F) v i = 0%R) -> forall i, i < n -> v i = 0%R).
  { intros v Hv. assert (T : forall k, k <= n -> forall i, n - k <= i -> i < n -> v i = 0%R); [|intros i Hi; apply (T n); lia].
    induction k as [|k IH]; intros Hk i H1 H2; [lia|]. destruct (Nat.eq_dec i (n - Datatypes.S k)) as [E|N]; [|apply IH; lia]. specialize (Hv i H2). unfold mvmul in Hv.
    rewrite (ksum_single _ i) in Hv; auto.
    - rewrite Nat.leb_refl in Hv. cbn in Hv. apply Rmult_integral in Hv. destruct Hv as [Hv|Hv]; auto. elim (D i H2 Hv).
    - intros j Hj Nj. destruct (Nat.leb_spec i j); [rewrite (IH ltac:(lia) j) by lia|]; cbn; ring. }
  split; [intros i q Hi Hq; apply HX; auto|]. intros i q Hi Hq.
  assert (V := Inj (fun i => mmul n X (upper F) i q - delta i q)%R). cut (mmul n X (upper F) i q - delta i q = 0)%R; [intros T; unfold mid; lra|]. apply V; auto. intros r Hr. unfold mvmul.
  transitivity (ksub (mmul n (upper F) (mmul n X (upper F)) r q) (mmul n (upper F) mid r q)).
  - unfold mmul at 2 4. rewrite <- ksum_sub. apply ksum_ext. intros k Hk. unfold mid. cbn. ring.
  - rewrite <- mmul_assoc_pt. rewrite (mmul_id_r n n (upper F)) by auto. transitivity (ksub (mmul n mid (upper F) r q) (upper F r q)); [|rewrite (mmul_id_l n n (upper F)) by auto; cbn; ring].
    f_equal. unfold mmul at 1 3. apply ksum_ext. intros k Hk. rewrite HX by auto. auto.
Qed.
Lemma c50_covariance : forall qr inverse (w w' : world R) remove numTop p cov, marginalize qr inverse w remove numTop = Ok (w', Some (p, cov)) ->
  w_ok w -> qr_good qr w -> inverse_good inverse (w_cols w) -> independent (w_rows w) (w_cols w) (w_J w) ->
  two_sided_inverse (w_cols w) (mmul (w_rows w) (mtr (w_J w)) (w_J w)) cov.
Proof.
  intros qr inverse w w' remove numTop p cov H W Hq Hi Ind. destruct (marg_inv _ _ _ _ _ _ _ _ H) as (_ & RC & _ & _ & _ & H'). cbv zeta in H'.
  set (rows := w_rows w) in *. set (cols := w_cols w) in *.
  match type of H' with context [qr rows cols ?A] => set (J := A) in *; set (QF := qr rows cols J) in * end. destruct H' as (_ & _ & _ & ->).
  assert (MJ : meq rows cols J (w_J w)) by (apply w_J_ok; auto). pose proof (Hq _ MJ) as Q. fold rows cols QF in Q.
  assert (Q2 : qr_of rows cols (w_J w) (fst QF) (snd QF)). { destruct Q as (Q1 & Q2). split; auto. intros r q Hr Hc. rewrite <- MJ by auto. apply Q1; auto. }
  apply (cov_ok rows cols (w_J w) (fst QF) (snd QF)); auto. apply Hi. apply upper_invertible. apply (diag_nonzero rows cols cols _ _ _ (le_n _) Q2 Ind).
Qed.
