From Coq Require Import Arith Lia List ZArith NArith Bool Reals Lra.
From Verif Require Import Lib_Ring Lib_Real Lib_Res CCM_Model SBM_Model SBM_Spec SBM_Proofs SBM_Proofs2 LinSolve_Model LinSolve_Spec LinSolve_Proofs LinSolve_Proofs2 Gain_Spec Gain_Proofs Gain_Proofs2 Gain_Proofs3 Policy_Model Policy_Spec LMLive_Spec.
Import ListNotations.
Local Open Scope R_scope.

(** ** sums and bounds *)
Lemma ksumR_abs : forall n (f : nat -> R), Rabs (ksum n f) <= ksum n (fun i => Rabs (f i)).
Proof. intros n f. induction n as [|n IH]; cbn [ksum]; kr; [rewrite Rabs_R0; lra|]. assert (A := Rabs_triang (ksum n f) (f n)). lra. Qed.
Lemma ksumR_le : forall n (f g : nat -> R), (forall i, (i < n)%nat -> f i <= g i) -> ksum n f <= ksum n g.
Proof. intros n f g. induction n as [|n IH]; intros H; cbn [ksum]; kr; [lra|]. assert (f n <= g n) by (apply H; lia). assert (ksum n f <= ksum n g) by (apply IH; intros; apply H; lia). lra. Qed.
Lemma ksumR_mul_r : forall n a (f : nat -> R), ksum n (fun i => f i * a) = ksum n f * a.
Proof. intros. rewrite Rmult_comm, <- ksumR_mul. apply ksum_ext. intros. ring. Qed.
Lemma nonzero_at : forall n (f : nat -> R), (forall p, (p < n)%nat -> f p = 0) \/ exists p, (p < n)%nat /\ f p <> 0.
Proof.
  intros n f. induction n as [|n [IH|(p & Hp & N)]].
  - left. intros; lia.
  - destruct (Req_EM_T (f n) 0) as [E|E]; [left|right; exists n; split; [lia|exact E]]. intros p Hp. destruct (Nat.eq_dec p n) as [->|]; [exact E|apply IH; lia].
  - right. exists p. split; [lia|exact N].
Qed.
Lemma largest : forall n (x : vec R), (0 < n)%nat -> exists q, (q < n)%nat /\ within n (Rabs (x q)) x.
Proof.
  intros n x H. induction n as [|n IH]; [lia|]. destruct (Nat.eq_dec n 0) as [->|N].
  - exists 0%nat. split; [lia|]. intros p Hp. replace p with 0%nat by lia. lra.
  - destruct IH as (q & Hq & W); [lia|]. destruct (Rle_lt_dec (Rabs (x n)) (Rabs (x q))) as [C|C].
    + exists q. split; [lia|]. intros p Hp. destruct (Nat.eq_dec p n) as [->|]; [exact C|apply W; lia].
    + exists n. split; [lia|]. intros p Hp. destruct (Nat.eq_dec p n) as [->|]; [lra|]. assert (Rabs (x p) <= Rabs (x q)) by (apply W; lia). lra.
Qed.
Lemma lin_bound : forall n (a x : vec R) m, 0 <= m -> within n m x -> Rabs (ksum n (fun q => a q * x q)) <= ksum n (fun q => Rabs (a q)) * m.
Proof.
  intros n a x m Hm W. eapply Rle_trans; [apply ksumR_abs|]. rewrite <- ksumR_mul_r. apply ksumR_le. intros i Hi. rewrite Rabs_mult. apply Rmult_le_compat_l; [apply Rabs_pos|apply W; exact Hi].
Qed.

(** ** derivatives *)
Section Frechet.
  Variable n : nat.
  Definition bounded (L : vec R -> R) : Prop := exists C, 0 <= C /\ forall r y, 0 <= r -> within n r y -> Rabs (L y) <= C * r.
  Definition fre (f L : vec R -> R) : Prop := derivative_is n f L /\ bounded L.
  Lemma fre_const : forall a, fre (fun _ => a) (fun _ => 0).
  Proof.
    intros a. split; [intros e He; exists 1; split; [lra|]; intros; replace (a - a - 0) with 0 by ring; rewrite Rabs_R0; nra|exists 0; split; [lra|]; intros; rewrite Rabs_R0; lra].
  Qed.
  Lemma fre_add : forall f g L M, fre f L -> fre g M -> fre (fun y => f y + g y) (fun y => L y + M y).
  Proof.
    intros f g L M (D1 & C1 & P1 & B1) (D2 & C2 & P2 & B2). split.
    - intros e He. destruct (D1 (e / 2) ltac:(lra)) as (d1 & Hd1 & H1). destruct (D2 (e / 2) ltac:(lra)) as (d2 & Hd2 & H2). exists (Rmin d1 d2). split; [apply Rmin_glb_lt; auto|].
      intros r y Hr W. assert (A := Rmin_l d1 d2). assert (B := Rmin_r d1 d2). specialize (H1 r y ltac:(lra) W). specialize (H2 r y ltac:(lra) W).
      replace (f y + g y - (f no_step + g no_step) - (L y + M y)) with ((f y - f no_step - L y) + (g y - g no_step - M y)) by ring. eapply Rle_trans; [apply Rabs_triang|]. lra.
    - exists (C1 + C2). split; [lra|]. intros r y Hr W. specialize (B1 r y Hr W). specialize (B2 r y Hr W). eapply Rle_trans; [apply Rabs_triang|]. lra.
  Qed.
  Lemma fre_near : forall f L, fre f L -> exists d C, 0 < d /\ 0 <= C /\ forall r y, 0 <= r <= d -> within n r y -> Rabs (f y - f no_step) <= C * r.
  Proof.
    intros f L (D & C & P & B). destruct (D 1 ltac:(lra)) as (d & Hd & H). exists d, (C + 1). split; auto. split; [lra|]. intros r y Hr W. specialize (H r y Hr W). specialize (B r y ltac:(lra) W).
    replace (f y - f no_step) with ((f y - f no_step - L y) + L y) by ring. eapply Rle_trans; [apply Rabs_triang|]. lra.
  Qed.
  Lemma fre_mul : forall f g L M, fre f L -> fre g M -> fre (fun y => f y * g y) (fun y => L y * g no_step + f no_step * M y).
  Proof.
    intros f g L M F G. destruct (fre_near f L F) as (df & Cf & Pdf & PCf & Nf). destruct (fre_near g M G) as (dg & Cg & Pdg & PCg & Ng).
    destruct F as (D1 & C1 & P1 & B1), G as (D2 & C2 & P2 & B2). set (a := f no_step) in *. set (b := g no_step) in *. split.
    - intros e He. assert (Ha := Rabs_pos a). assert (Hb := Rabs_pos b).
      destruct (D1 (e / (3 * (Rabs b + 1))) ltac:(apply Rdiv_lt_0_compat; lra)) as (d1 & Hd1 & H1). destruct (D2 (e / (3 * (Rabs a + 1))) ltac:(apply Rdiv_lt_0_compat; lra)) as (d2 & Hd2 & H2).
      set (d3 := e / (3 * (Cf * Cg + 1))). assert (Hd3 : 0 < d3) by (apply Rdiv_lt_0_compat; nra).
      exists (Rmin (Rmin d1 d2) (Rmin d3 (Rmin df dg))). split; [repeat apply Rmin_glb_lt; auto|].
      intros r y Hr W.
      assert (Q1 := Rmin_l (Rmin d1 d2) (Rmin d3 (Rmin df dg))). assert (Q2 := Rmin_r (Rmin d1 d2) (Rmin d3 (Rmin df dg))). assert (Q3 := Rmin_l d1 d2). assert (Q4 := Rmin_r d1 d2).
      assert (Q5 := Rmin_l d3 (Rmin df dg)). assert (Q6 := Rmin_r d3 (Rmin df dg)). assert (Q7 := Rmin_l df dg). assert (Q8 := Rmin_r df dg).
      specialize (H1 r y ltac:(lra) W). specialize (H2 r y ltac:(lra) W). specialize (Nf r y ltac:(lra) W). specialize (Ng r y ltac:(lra) W).
      change (Rabs (f y * g y - a * b - (L y * b + a * M y)) <= e * r). replace (f y * g y - a * b - (L y * b + a * M y)) with ((f y - a - L y) * b + (g y - b - M y) * a + (f y - a) * (g y - b)) by ring.
      eapply Rle_trans; [apply Rabs_triang|]. eapply Rle_trans; [apply Rplus_le_compat_r, Rabs_triang|]. rewrite !Rabs_mult.
      assert (T1 : Rabs (f y - a - L y) * Rabs b <= e / 3 * r).
      { eapply Rle_trans; [apply Rmult_le_compat_r; [exact Hb|exact H1]|]. replace (e / (3 * (Rabs b + 1)) * r * Rabs b) with (e / 3 * r * (Rabs b / (Rabs b + 1))) by (field; lra).
        assert (Rabs b / (Rabs b + 1) <= 1) by (apply (Rmult_le_reg_r (Rabs b + 1)); [lra|]; field_simplify; lra). assert (0 <= e / 3 * r) by (apply Rmult_le_pos; lra). nra. }
      assert (T2 : Rabs (g y - b - M y) * Rabs a <= e / 3 * r).
      { eapply Rle_trans; [apply Rmult_le_compat_r; [exact Ha|exact H2]|]. replace (e / (3 * (Rabs a + 1)) * r * Rabs a) with (e / 3 * r * (Rabs a / (Rabs a + 1))) by (field; lra).
        assert (Rabs a / (Rabs a + 1) <= 1) by (apply (Rmult_le_reg_r (Rabs a + 1)); [lra|]; field_simplify; lra). assert (0 <= e / 3 * r) by (apply Rmult_le_pos; lra). nra. }
      assert (T3 : Rabs (f y - a) * Rabs (g y - b) <= e / 3 * r).
      { eapply Rle_trans; [apply Rmult_le_compat; [apply Rabs_pos|apply Rabs_pos|exact Nf|exact Ng]|]. assert (Rd : r <= d3) by lra.
        assert (E : (Cf * Cg + 1) * d3 = e / 3) by (unfold d3; field; nra). assert (0 <= Cf * Cg) by nra. assert (Cf * Cg * r <= e / 3) by nra. nra. }
      lra.
    - exists (C1 * Rabs b + Rabs a * C2). assert (Ha := Rabs_pos a). assert (Hb := Rabs_pos b). split; [nra|]. intros r y Hr W. specialize (B1 r y Hr W). specialize (B2 r y Hr W). eapply Rle_trans; [apply Rabs_triang|]. rewrite !Rabs_mult. nra.
  Qed.
  Lemma fre_comp : forall f L (g : R -> R) d, fre f L -> derivable_pt_lim g (f no_step) d -> fre (fun y => g (f y)) (fun y => d * L y).
  Proof.
    intros f L g d F Dg. destruct (fre_near f L F) as (df & Cf & Pdf & PCf & Nf). destruct F as (D1 & C1 & P1 & B1). set (a := f no_step) in *. assert (Hd := Rabs_pos d). split.
    - intros e He. destruct (D1 (e / (2 * (Rabs d + 1))) ltac:(apply Rdiv_lt_0_compat; lra)) as (d1 & Hd1 & H1). destruct (Dg (e / (2 * (Cf + 1))) ltac:(apply Rdiv_lt_0_compat; lra)) as (d2 & H2).
      assert (P2 := cond_pos d2). set (d3 := d2 / (2 * (Cf + 1))). assert (P3 : 0 < d3) by (apply Rdiv_lt_0_compat; lra).
      exists (Rmin (Rmin d1 df) d3). split; [repeat apply Rmin_glb_lt; auto|]. intros r y Hr W.
      assert (Q1 := Rmin_l (Rmin d1 df) d3). assert (Q2 := Rmin_r (Rmin d1 df) d3). assert (Q3 := Rmin_l d1 df). assert (Q4 := Rmin_r d1 df).
      specialize (H1 r y ltac:(lra) W). specialize (Nf r y ltac:(lra) W). set (h := f y - a) in *.
      change (Rabs (g (f y) - g a - d * L y) <= e * r). replace (g (f y) - g a - d * L y) with ((g (a + h) - g a - d * h) + d * (h - L y)) by (replace (a + h) with (f y) by (unfold h; ring); ring).
      eapply Rle_trans; [apply Rabs_triang|]. rewrite Rabs_mult.
      assert (T1 : Rabs (g (a + h) - g a - d * h) <= e / 2 * r).
      { destruct (Req_EM_T h 0) as [Z|Z]; [rewrite Z, Rplus_0_r; replace (g a - g a - d * 0) with 0 by ring; rewrite Rabs_R0; apply Rmult_le_pos; lra|].
        assert (S1 : Rabs h < d2). { assert (E : (2 * (Cf + 1)) * d3 = d2) by (unfold d3; field; lra). assert (Cf * r <= Cf * d3) by nra. nra. }
        specialize (H2 h Z S1). replace (g (a + h) - g a - d * h) with (((g (a + h) - g a) / h - d) * h) by (field; exact Z). rewrite Rabs_mult.
        eapply Rle_trans; [apply Rmult_le_compat; [apply Rabs_pos|apply Rabs_pos|apply Rlt_le; exact H2|exact Nf]|]. replace (e / (2 * (Cf + 1)) * (Cf * r)) with (e / 2 * r * (Cf / (Cf + 1))) by (field; lra).
        assert (Cf / (Cf + 1) <= 1) by (apply (Rmult_le_reg_r (Cf + 1)); [lra|]; field_simplify; lra). assert (0 <= e / 2 * r) by (apply Rmult_le_pos; lra). nra. }
      assert (T2 : Rabs d * Rabs (h - L y) <= e / 2 * r).
      { eapply Rle_trans; [apply Rmult_le_compat_l; [exact Hd|exact H1]|]. replace (Rabs d * (e / (2 * (Rabs d + 1)) * r)) with (e / 2 * r * (Rabs d / (Rabs d + 1))) by (field; lra).
        assert (Rabs d / (Rabs d + 1) <= 1) by (apply (Rmult_le_reg_r (Rabs d + 1)); [lra|]; field_simplify; lra). assert (0 <= e / 2 * r) by (apply Rmult_le_pos; lra). nra. }
      lra.
    - exists (Rabs d * C1). split; [nra|]. intros r y Hr W. specialize (B1 r y Hr W). rewrite Rabs_mult. nra.
  Qed.
  Lemma fre_ksum : forall m (f L : nat -> vec R -> R), (forall k, (k < m)%nat -> fre (f k) (L k)) -> fre (fun y => ksum m (fun k => f k y)) (fun y => ksum m (fun k => L k y)).
  Proof. intros m f L. induction m as [|m IH]; intros H; cbn [ksum]; kr; [apply fre_const|]. apply (fre_add (fun y => ksum m (fun k => f k y)) (f m)); [apply IH; intros; apply H; lia|apply H; lia]. Qed.
  Lemma fre_lsum : forall A (T : list A) (f L : A -> vec R -> R), (forall a, In a T -> fre (f a) (L a)) -> fre (fun y => lsum T (fun a => f a y)) (fun y => lsum T (fun a => L a y)).
  Proof. intros A T f L. induction T as [|a T IH]; intros H; cbn [lsum]; kr; [apply fre_const|]. apply (fre_add (f a) (fun y => lsum T (fun a => f a y))); [apply H; cbn; auto|apply IH; intros; apply H; cbn; auto]. Qed.
  Lemma fre_L : forall f L M, (forall y, L y = M y) -> fre f L -> fre f M.
  Proof.
    intros f L M E (D & C & P & B). split; [intros e He; destruct (D e He) as (d & Hd & H); exists d; split; auto; intros r y Hr W; rewrite <- E; auto|]. exists C. split; auto. intros; rewrite <- E; auto.
  Qed.
End Frechet.
Lemma lin_change_bounded : forall l s t k, layout_ok l -> lterm_ok l t -> bounded (total l) (fun y => lin_change l s t y k).
Proof.
  intros l s t k Lo F. exists (ksum (total l) (fun q => Rabs (raw_jac l t k q * sc_at l s q))). split; [apply ksumR_nonneg; intros; apply Rabs_pos|].
  intros r y Hr W. rewrite <- raw_sum by auto. rewrite (ksum_ext _ _ (fun q => (raw_jac l t k q * sc_at l s q) * y q)) by (intros; ring). apply lin_bound; auto.
Qed.
Lemma step_cost_der : forall l s tas, layout_ok l -> Forall (lterm_ok l) (map fst tas) -> Forall (linearises l s) tas ->
  derivative_is (total l) (step_cost tas) (fun y => 2 * lsum (map fst tas) (fun t => wprod t (lt_err t) (lin_change l s t y))).
Proof.
  intros l s tas Lo F A. rewrite Forall_map in F. rewrite Forall_forall in F, A. unfold step_cost.
  apply (fre_L (total l) _ (fun y => lsum tas (fun ta => 2 * wprod (fst ta) (lt_err (fst ta)) (lin_change l s (fst ta) y)))).
  { intros y. rewrite lsum_map. exact (@lsum_mul_l R RRing _ tas 2 _). }
  apply (fre_lsum (total l) _ tas (fun ta y => ts_rho (snd ta) (squared (fst ta) (ts_E (snd ta) y))) (fun ta y => 2 * wprod (fst ta) (lt_err (fst ta)) (lin_change l s (fst ta) y))).
  intros ta Hta. specialize (F ta Hta). destruct (A ta Hta) as (H1 & H2). destruct ta as (t, T). cbn [fst snd] in *. set (d := lt_dim t) in *. set (M := mmul d (lt_S t) (mtr (lt_S t))).
  assert (E0 : squared t (ts_E T no_step) = squared t (lt_err t)).
  { unfold squared. apply ksum_ext. intros k Hk. apply ksum_ext. intros k' Hk'. rewrite (proj1 (H1 k Hk)), (proj1 (H1 k' Hk')). reflexivity. }
  apply (fre_L (total l) _ (fun y => lt_sw t * lt_sw t * ksum d (fun k => ksum d (fun k' => (lin_change l s t y k * M k k' + lt_err t k * 0) * lt_err t k' + lt_err t k * M k k' * lin_change l s t y k')))).
  - intros y. unfold wprod. fold d. fold M. transitivity (lt_sw t * lt_sw t * (2 * ksum d (fun k => ksum d (fun k' => lt_err t k * M k k' * lin_change l s t y k')))); [|ring]. f_equal.
    transitivity (ksum d (fun k => ksum d (fun k' => lin_change l s t y k * M k k' * lt_err t k')) + ksum d (fun k => ksum d (fun k' => lt_err t k * M k k' * lin_change l s t y k'))).
    { rewrite <- ksumR_add. apply ksum_ext. intros k Hk. rewrite <- ksumR_add. apply ksum_ext. intros. ring. }
    assert (Q : ksum d (fun k => ksum d (fun k' => lin_change l s t y k * M k k' * lt_err t k')) = ksum d (fun k => ksum d (fun k' => lt_err t k * M k k' * lin_change l s t y k'))); [|rewrite Q; ring].
    rewrite ksumR_swap. apply ksum_ext. intros k Hk. apply ksum_ext. intros k' Hk'. assert (Sy : M k' k = M k k') by apply inv_sym. rewrite Sy. ring.
  - apply (fre_comp (total l) (fun y => squared t (ts_E T y)) _ (ts_rho T) (lt_sw t * lt_sw t)); [|rewrite E0; exact H2]. unfold squared. fold d. fold M.
    apply (fre_ksum (total l) d (fun k y => ksum d (fun k' => ts_E T y k * M k k' * ts_E T y k'))). intros k Hk. apply (fre_ksum (total l) d (fun k' y => ts_E T y k * M k k' * ts_E T y k')). intros k' Hk'.
    destruct (H1 k Hk) as (E1 & D1). destruct (H1 k' Hk') as (E2 & D2). rewrite <- E1, <- E2.
    apply (fre_mul (total l) (fun y => ts_E T y k * M k k') (fun y => ts_E T y k') (fun y => lin_change l s t y k * M k k' + ts_E T no_step k * 0) (fun y => lin_change l s t y k')).
    + apply (fre_mul (total l) (fun y => ts_E T y k) (fun _ => M k k') (fun y => lin_change l s t y k) (fun _ => 0)); [split; [exact D1|apply lin_change_bounded; auto]|apply fre_const].
    + split; [exact D2|apply lin_change_bounded; auto].
Qed.

(** ** enough damping makes the cost fall *)
Section Core.
  Variables (rows n : nat) (J : mat R) (e : vec R) (F : vec R -> R).
  Hypothesis D : derivative_is n F (fun y => 2 * GG rows n J e y).
  Let g (p : nat) : R := ksum rows (fun r => J r p * e r).
  Lemma GG_g : forall y, GG rows n J e y = ksum n (fun p => g p * y p).
  Proof. intros y. unfold GG. rewrite <- swap_J. apply ksum_ext. intros p Hp. unfold g. ring. Qed.
  Lemma falls : (exists y, GG rows n J e y <> 0) -> exists M, 0 < M /\ forall m x, M <= m -> normal_equations rows n J e (fun _ => sqrt m) x -> F x < F no_step.
  Proof.
    intros (y & NS). destruct (nonzero_at n g) as [Z|(p & Hp & Np)].
    { exfalso. apply NS. rewrite GG_g. apply zeroR. intros i Hi. rewrite Z by auto. ring. }
    assert (Pn : (0 < n)%nat) by lia. assert (Pg : 0 < Rabs (g p)) by (apply Rabs_pos_lt; exact Np).
    set (B := ksum rows (fun r => Rabs (J r p) * ksum n (fun q => Rabs (J r q)))). assert (PB : 0 <= B) by (apply ksumR_nonneg; intros; apply Rmult_le_pos; [apply Rabs_pos|apply ksumR_nonneg; intros; apply Rabs_pos]).
    set (G := ksum n (fun q => Rabs (g q))). assert (PG : 0 <= G) by (apply ksumR_nonneg; intros; apply Rabs_pos).
    destruct (D (Rabs (g p) / 2) ltac:(lra)) as (d0 & Pd0 & HD). set (d := Rmin d0 (Rabs (g p) / (2 * (B + 1)))).
    assert (Pd : 0 < d) by (apply Rmin_glb_lt; [exact Pd0|apply Rdiv_lt_0_compat; lra]).
    exists (G / d + 1). assert (PGd : 0 <= G / d) by (apply Rmult_le_pos; [exact PG|apply Rlt_le, Rinv_0_lt_compat; exact Pd]). split; [lra|].
    intros mu x Hmu NE. assert (Pmu : 0 < mu) by lra. assert (Sq : sqrt mu * sqrt mu = mu) by (apply sqrt_sqrt; lra).
    destruct (largest n x Pn) as (q & Hq & W). set (m := Rabs (x q)) in *. assert (Pm : 0 <= m) by apply Rabs_pos.
    assert (Bnd : Rabs (ksum rows (fun r => J r p * Jm n J x r)) <= B * m).
    { eapply Rle_trans; [apply ksumR_abs|]. unfold B. rewrite <- ksumR_mul_r. apply ksumR_le. intros r Hr. rewrite Rabs_mult, Rmult_assoc. apply Rmult_le_compat_l; [apply Rabs_pos|]. unfold Jm, mvmul. apply lin_bound; auto. }
    assert (Row : ksum rows (fun r => J r p * Jm n J x r) + mu * x p = - g p).
    { assert (Q := NE p Hp). rewrite dn in Q by exact Hp. revert Q. unfold mvmul, mtr. kr. intros Q. rewrite <- Sq. unfold g. lra. }
    assert (Xp : Rabs (x p) <= m) by (apply W; exact Hp).
    assert (Low : Rabs (g p) <= B * m + mu * m).
    { replace (g p) with (- (ksum rows (fun r => J r p * Jm n J x r) + mu * x p)) by lra. rewrite Rabs_Ropp. eapply Rle_trans; [apply Rabs_triang|]. rewrite Rabs_mult, (Rabs_right mu) by lra. assert (mu * Rabs (x p) <= mu * m) by (apply Rmult_le_compat_l; lra). lra. }
    assert (Pm' : 0 < m) by (destruct (Rle_lt_or_eq_dec 0 m Pm) as [|E]; auto; rewrite <- E in Low; lra).
    assert (DD := ne_all _ _ _ _ _ _ NE x). set (Gx := GG rows n J e x) in *.
    assert (Quad : mu * (m * m) <= NN rows n J (fun _ => sqrt mu) x x).
    { unfold NN. assert (0 <= ksum rows (fun r => Jm n J x r * Jm n J x r)) by (apply ksumR_nonneg; intros; nra).
      assert (mu * (m * m) <= ksum n (fun p => sqrt mu * x p * (sqrt mu * x p))); [|lra].
      rewrite (ksum_ext _ _ (fun p => mu * (x p * x p))) by (intros i Hi; replace (sqrt mu * x i * (sqrt mu * x i)) with (sqrt mu * sqrt mu * (x i * x i)) by ring; rewrite Sq; reflexivity). rewrite ksumR_mul. apply Rmult_le_compat_l; [lra|].
      assert (Mq : m * m = x q * x q) by (unfold m; rewrite <- Rabs_mult; apply Rabs_right; nra). rewrite Mq.
      apply (Rle_trans _ (ksum n (fun p => delta q p * (x p * x p)))); [right; symmetry; exact (@ksum_delta_l R RRing n q (fun p => x p * x p) Hq)|]. apply ksumR_le. intros i Hi. unfold delta. destruct (q =? i)%nat; kr; nra. }
    assert (Up : - Gx <= G * m).
    { unfold Gx. rewrite GG_g. assert (Q := lin_bound n g x m Pm W). fold G in Q. assert (T := Rle_abs (- ksum n (fun p => g p * x p))). rewrite Rabs_Ropp in T. lra. }
    assert (Sm : mu * m <= G). { assert (mu * m * m <= G * m) by lra. apply (Rmult_le_reg_r m); auto. }
    assert (Md : m <= d).
    { apply (Rmult_le_reg_l mu); [exact Pmu|]. assert (G <= mu * d); [|lra]. assert (E : G = G / d * d) by (field; lra). rewrite E. apply Rmult_le_compat_r; lra. }
    assert (Q1 := Rmin_l d0 (Rabs (g p) / (2 * (B + 1)))). assert (Q2 := Rmin_r d0 (Rabs (g p) / (2 * (B + 1)))). fold d in Q1, Q2.
    assert (Bm : B * m <= Rabs (g p) / 2).
    { assert (E : (B + 1) * (Rabs (g p) / (2 * (B + 1))) = Rabs (g p) / 2) by (field; lra). assert (m <= Rabs (g p) / (2 * (B + 1))) by lra. nra. }
    specialize (HD m x ltac:(lra) W). fold Gx in HD. assert (T := Rle_abs (F x - F no_step - 2 * Gx)).
    assert (Fin : Rabs (g p) / 2 * m <= mu * (m * m)) by nra. nra.
  Qed.
End Core.
