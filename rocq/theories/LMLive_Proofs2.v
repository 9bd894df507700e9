From Coq Require Import Arith Lia List ZArith NArith Bool Reals Lra.
From Verif Require Import Lib_Ring Lib_Real Lib_Res CCM_Model SBM_Model SBM_Spec SBM_Proofs SBM_Proofs2 LinSolve_Model LinSolve_Spec LinSolve_Proofs LinSolve_Proofs2 Gain_Spec Gain_Proofs Gain_Proofs2 Gain_Proofs3 Policy_Model Policy_Spec Policy_Proofs Policy_Proofs2 LMLive_Spec LMLive_Proofs.
From Verif Require CCM_Spec CCM_Proofs.
Import ListNotations.
Local Open Scope R_scope.

(** ** the damping grows *)
Lemma two_pow : forall k, INR k <= 2 ^ k.
Proof. induction k as [|k IH]; [cbn; lra|]. rewrite S_INR. cbn [pow]. assert (1 <= 2 ^ k) by (apply pow_R1_Rle; lra). lra. Qed.
Section RunP.
  Variables (n : nat) (P : lmparams) (St : Type) (attempt : St -> R -> St -> vec R -> Prop) (F : vec R -> R) (fresh : St).
  Variables (Inv : R -> St -> Prop) (NE : R -> vec R -> Prop).
  Hypothesis OK : lm_params_ok P.
  Hypothesis first : forall l S dx, 0 < l -> attempt fresh l S dx -> Inv l S /\ exists m, l * l - l <= m /\ NE m dx.
  Hypothesis next : forall l S l' S' dx, 0 < l -> 2 * l <= l' -> Inv l S -> attempt S l' S' dx -> Inv l' S' /\ exists m, l' * l' - l' <= m /\ NE m dx.
  Hypothesis core : exists M, 0 < M /\ forall m x, M <= m -> NE m x -> F x < F no_step.
  Lemma row_inv : forall k s dx S, row n P St attempt F fresh k s dx S ->
    lm_reach n P s dx /\ bfirst (lm_base s) = false /\ exists l, lambda s = Some l /\ floor_ P * 2 ^ k <= l /\ Inv l S /\ exists m, l * l - l <= m /\ NE m dx.
  Proof.
    assert (FP := floor_pos P OK). intros k s dx S H. induction H as [s dx l S Re Fi La At|k s dx S c dx' s' l' S' H (Re & Fi & l & La & Gr & IV & _) Rj Pf So La' At].
    - split; auto. split; auto. destruct (lm_inv n P s dx OK Re) as (l0 & La0 & Fl & _). rewrite La in La0. injection La0 as <-. exists l. split; auto. split; [cbn [pow]; lra|]. apply first; auto. lra.
    - assert (Fa : lm_failed n s dx c) by (split; auto). destruct (lm_failure_step n P s dx c true dx' s' OK Re Fa So) as (l0 & f & La0 & Ls & _ & _ & Hf & _). rewrite La in La0. injection La0 as <-. rewrite La' in Ls. injection Ls as ->.
      split; [eapply lm_reach_step; [exact Re| |exact So]; intros _ Q; rewrite Pf in Q; discriminate|]. split; [unfold lm_solve in So; destruct (if bfirst _ then _ else _) as ((a, b), d) in So; injection So as _ _ <-; reflexivity|].
      assert (P2 : 0 < 2 ^ k) by (apply pow_lt; lra). assert (Pl : 0 < l) by nra. exists (l * f). split; auto. split; [cbn [pow]; nra|]. apply (next l S); auto. nra.
  Qed.
  Lemma run_ends : rejections_end n P St attempt F fresh.
  Proof.
    destruct core as (M & PM & HM). assert (FP := floor_pos P OK). set (z := (M + 2) / floor_ P). assert (Pz : 0 < z) by (apply Rdiv_lt_0_compat; lra).
    exists (Z.to_nat (up z)). intros k s dx S H Rj. destruct (row_inv k s dx S H) as (_ & _ & l & _ & Gr & _ & m & Hm & E).
    destruct (Nat.lt_ge_cases k (Z.to_nat (up z))) as [C|C]; auto. exfalso.
    destruct (archimed z) as (A & _). assert (Pu : (0 <= up z)%Z) by (apply le_IZR; lra). assert (Zk : z < INR k).
    { eapply Rlt_le_trans; [exact A|]. rewrite INR_IZR_INZ. apply IZR_le. lia. }
    assert (T := two_pow k). assert (Big : M + 2 <= l).
    { eapply Rle_trans; [|exact Gr]. replace (M + 2) with (floor_ P * z) by (unfold z; field; lra). apply Rmult_le_compat_l; lra. }
    assert (M <= m) by nra. specialize (HM m dx H0 E). lra.
  Qed.
End RunP.

(** ** from the linear equations with m on the diagonal to the damped normal equations *)
Definition shifted (rows n : nat) (J : mat R) (e : vec R) (m : R) (x : vec R) : Prop :=
  solves_eq n (fun p q => mmul rows (mtr J) J p q + delta p q * m) x (fun p => - mvmul rows (mtr J) e p).
Lemma shifted_ne : forall rows n J e m x, 0 <= m -> shifted rows n J e m x -> normal_equations rows n J e (fun _ => sqrt m) x.
Proof. intros rows n J e m x Hm. unfold shifted, normal_equations. apply solves_ext; auto. intros p q Hp Hq. unfold damped_normal. kr. rewrite sqrt_sqrt by auto. reflexivity. Qed.
Lemma ne_shifted : forall rows n J e l x, normal_equations rows n J e (fun _ => l) x -> shifted rows n J e (l * l) x.
Proof. intros rows n J e l x H. exact H. Qed.
Section Cost.
  Variables (l : list nat) (s : nat -> R) (ts : list (lterm R)) (tas : list (lterm R * term_of_step)).
  Hypothesis Lo : layout_ok l.
  Hypothesis F : Forall (lterm_ok l) ts.
  Hypothesis Et : map fst tas = ts.
  Hypothesis A : Forall (linearises l s) tas.
  Hypothesis NS : ~ stationary l s ts.
  Lemma not_stat : exists y, GG (jrows ts) (total l) (Js l s ts) (e_of ts) y <> 0.
  Proof.
    destruct (nonzero_at (total l) (fun p => ksum (jrows ts) (fun r => Js l s ts r p * e_of ts r))) as [Z|(p & Hp & N)].
    - exfalso. apply NS. intros y. rewrite (grad_rows l s ts Lo F). rewrite GG_g. apply zeroR. intros i Hi. rewrite (Z i Hi). ring.
    - exists (fun q => delta q p). rewrite GG_g. rewrite (ksum_ext _ _ (fun q => kmul (ksum (jrows ts) (fun r => Js l s ts r q * e_of ts r)) (delta q p))) by (intros; reflexivity).
      rewrite (@ksum_delta_r R RRing (total l) p (fun q => ksum (jrows ts) (fun r => Js l s ts r q * e_of ts r)) Hp). exact N.
  Qed.
  Lemma cost_falls : exists M, 0 < M /\ forall m x, M <= m -> shifted (jrows ts) (total l) (Js l s ts) (e_of ts) m x -> step_cost tas x < step_cost tas no_step.
  Proof.
    assert (D := step_cost_der l s tas Lo). rewrite Et in D. specialize (D F A).
    assert (D' : derivative_is (total l) (step_cost tas) (fun y => 2 * GG (jrows ts) (total l) (Js l s ts) (e_of ts) y)).
    { intros e He. destruct (D e He) as (d & Hd & H). exists d. split; auto. intros r y Hr W. specialize (H r y Hr W). rewrite (grad_rows l s ts Lo F) in H. exact H. }
    destruct (falls _ _ _ _ _ D' not_stat) as (M & PM & HM). exists M. split; auto. intros m x Hm E. apply (HM m x Hm). apply shifted_ne; auto. lra.
  Qed.

  (** block Cholesky *)
  Lemma block_ends : forall bsolve H B c0 P, represents H l l B -> symmetric_solver bsolve -> lm_params_ok P ->
    exists H' rhs, bc_build s ts H = Ok (H', rhs) /\ rejections_end (total l) P (bc R) (block_attempt bsolve) (step_cost tas) (mkBc H' rhs c0 true).
  Proof.
    intros bsolve H B c0 P Rp So OK. destruct (bc_build_ok s l ts H B (Js l s ts) Lo Rp F (Js_scaled l s ts Lo)) as (H' & rhs & E & U & V). exists H', rhs. split; auto.
    set (JJ := mmul (jrows ts) (mtr (Js l s ts)) (Js l s ts)) in *.
    set (up := fun nu => (fun p q => JJ p q + delta p q * nu) : mat R).
    assert (Step : forall b nu lam b' dx, holds_upper (bc_H b) l (up nu) -> bc_rhs b = rhs -> block_attempt bsolve b lam b' dx ->
      holds_upper (bc_H b') l (up (nu + (lam * lam - lam))) /\ bc_rhs b' = rhs /\ shifted (jrows ts) (total l) (Js l s ts) (e_of ts) (nu + lam * lam) dx).
    { intros b nu lam b' dx Hu Er At. pose proof Hu as (W & St & R1 & C1 & Bk). assert (G : good (bc_H b) l l) by (split; auto). unfold block_attempt in At.
      destruct (c48_block bsolve l (mkBc (bc_H b) (bc_rhs b) (fun _ => lam) true) Lo G) as (b2 & Eb & Eq & _ & _ & G2 & _ & Bk2). rewrite Eb in At. cbn [bc_H bc_c bc_use bc_rhs] in *. injection At as <- Ex. specialize (Bk2 eq_refl).
      destruct (on_diagonal_ok (vsq (fun _ => lam)) l (bc_H b) G) as (H1 & E1 & G1 & B1). rewrite E1 in Ex.
      assert (Shape : forall (m : sbm R) d, good m l l -> (forall br bc i j, (br < length l)%nat -> (bc < length l)%nat -> (i < bsize l br)%nat -> (j < bsize l bc)%nat ->
        blk m br bc i j = kadd (blk (bc_H b) br bc i j) (if (br =? bc)%nat && (i =? j)%nat then d else 0)) -> holds_upper m l (up (nu + d))).
      { intros m d (W1 & S1 & Q1 & Q2) Bm. split; auto. split; auto. split; auto. split; auto. intros br bc i j H2 H3 H4 H5. rewrite Bm, Bk by auto. unfold up. rewrite delta_eqb. destruct (Nat.eqb_spec br bc) as [->|N]; cbn [andb].
        - rewrite Nat.leb_refl. destruct (Nat.eqb_spec i j) as [->|N]; [rewrite Nat.eqb_refl; kr; ring|]. rewrite (proj2 (Nat.eqb_neq (SBM_Model.base l bc + i) (SBM_Model.base l bc + j))) by lia. kr. ring.
        - destruct (Nat.eqb_spec (SBM_Model.base l br + i) (SBM_Model.base l bc + j)) as [Q|_]; [destruct (tile_unique l br bc i j Lo H2 H3 H4 H5 Q); tauto|]. destruct (br <=? bc)%nat; kr; ring. }
      split; [apply Shape; auto|]. split; [congruence|].
      assert (U1 : holds_upper H1 l (up (nu + lam * lam))) by (apply Shape; auto; intros; rewrite B1 by auto; reflexivity). unfold shifted. eapply solves_ext; [| |eapply So; [exact U1| |exact Ex]].
      - intros; reflexivity.
      - intros p Hp. rewrite Er. apply V; auto.
      - intros p q _ _. unfold up, JJ. rewrite jtj_sym, !delta_eqb, (Nat.eqb_sym q p). reflexivity. }
    assert (U0 : holds_upper H' l (up 0)).
    { destruct U as (W & St & R1 & C1 & Bk). split; auto. split; auto. split; auto. split; auto. intros. rewrite Bk by auto. unfold up. destruct (_ <=? _)%nat; auto. ring. }
    apply (run_ends (total l) P (bc R) (block_attempt bsolve) (step_cost tas) _ (fun lam b => bc_rhs b = rhs /\ exists nu, - (2 * lam) <= nu /\ holds_upper (bc_H b) l (up nu)) (shifted (jrows ts) (total l) (Js l s ts) (e_of ts)) OK).
    - intros lam b dx Pl At. destruct (Step (mkBc H' rhs c0 true) 0 lam b dx U0 eq_refl At) as (X1 & X2 & X3). split; [split; auto; exists (0 + (lam * lam - lam)); split; [nra|auto]|]. exists (0 + lam * lam). split; [nra|exact X3].
    - intros lam b lam' b' dx Pl Gr (Er & nu & Hn & Hu) At. destruct (Step b nu lam' b' dx Hu Er At) as (X1 & X2 & X3). split; [split; auto; eexists; split; [|exact X1]; nra|]. eexists. split; [|exact X3]. nra.
    - exact cost_falls.
  Qed.
End Cost.

Lemma jm_one : forall l ts e m x, layout_ok l -> shifted (jrows ts) (total l) (J_of l ts) e m x -> shifted (jrows ts) (total l) (Js l (fun _ => 1) ts) e m x.
Proof.
  intros l ts e m x Lo. unfold shifted. apply solves_ext.
  - intros p q Hp Hq. f_equal. unfold mmul, mtr. apply ksum_ext. intros r Hr. rewrite !Js_one by auto. reflexivity.
  - intros p Hp. f_equal. unfold mvmul, mtr. apply ksum_ext. intros r Hr. rewrite Js_one by auto. reflexivity.
Qed.
Lemma nth_repeatR : forall n (a d : R) p, (p < n)%nat -> nth p (repeat a n) d = a.
Proof. induction n as [|n IH]; intros a d [|p] H; cbn; auto; try lia. apply IH. lia. Qed.
(** sparse Cholesky *)
Lemma sparse_ends : forall csolve l ts tas e0 c use m P, buildable l ts m -> aat_solver csolve -> lm_params_ok P ->
  map fst tas = ts -> Forall (linearises l (fun _ => 1)) tas -> ~ stationary l (fun _ => 1) ts ->
  exists x, sc_build l ts (eval_errors ts 0 e0) c use m = Ok x /\ rejections_end (total l) P (sc R) (sparse_attempt csolve (total l)) (step_cost tas) x.
Proof.
  intros csolve l ts tas e0 c use m P B So OK Et A NS. pose proof B as (Lo & _ & F & _). destruct (sc_build_ok l ts (eval_errors ts 0 e0) c use m B) as (x & E & W & St & Cr & Cc & D & V & Ee & Ec & Eu).
  exists x. split; auto.
  assert (Step : forall y lam y' dx, sc_J y = sc_J x -> sc_e y = sc_e x -> sc_rhs y = sc_rhs x -> sparse_attempt csolve (total l) y lam y' dx ->
    sc_J y' = sc_J x /\ sc_e y' = sc_e x /\ sc_rhs y' = sc_rhs x /\ shifted (jrows ts) (total l) (Js l (fun _ => 1) ts) (e_of ts) (lam * lam) dx).
  { intros y lam y' dx E1 E2 E3 At. unfold sparse_attempt in At. rewrite E1, E2, E3 in At.
    assert (Lc : length (repeat lam (total l)) = total l) by apply repeat_length.
    destruct (c49_sparse_cholesky csolve l ts e0 (repeat lam (total l)) true m B Lc So) as (x2 & sol & F1 & F2 & N).
    assert (X2 : x2 = mkSc (sc_J x) (sc_e x) (sc_rhs x) (repeat lam (total l)) true).
    { unfold sc_build in E, F1. destruct (initStructure _ _ _ _) as [mp| |]; cbn [bind] in *; try discriminate. destruct (build _ _) as [m1| |]; cbn [bind] in *; try discriminate. destruct (rightMultiply _ _ _) as [r| |]; cbn [bind] in *; try discriminate.
      injection E as <-. injection F1 as <-. reflexivity. }
    rewrite <- X2, F2 in At. injection At as Ey Es. subst y'. rewrite X2. cbn [sc_J sc_e sc_rhs]. split; auto. split; auto. split; auto.
    apply jm_one; auto. specialize (N dx Es). revert N. unfold normal_equations, shifted. apply solves_ext; auto. intros p q Hp Hq. unfold damped_normal. rewrite nth_repeatR by auto. reflexivity. }
  apply (run_ends (total l) P (sc R) (sparse_attempt csolve (total l)) (step_cost tas) _ (fun _ y => sc_J y = sc_J x /\ sc_e y = sc_e x /\ sc_rhs y = sc_rhs x) (shifted (jrows ts) (total l) (Js l (fun _ => 1) ts) (e_of ts)) OK).
  - intros lam y dx Pl At. destruct (Step x lam y dx eq_refl eq_refl eq_refl At) as (X1 & X2 & X3 & X4). split; auto. exists (lam * lam). split; [lra|auto].
  - intros lam y lam' y' dx Pl Gr (E1 & E2 & E3) At. destruct (Step y lam' y' dx E1 E2 E3 At) as (X1 & X2 & X3 & X4). split; auto. exists (lam' * lam'). split; [lra|auto].
  - exact (cost_falls l (fun _ => 1) ts tas Lo F Et A NS).
Qed.
(** dense QR *)
Lemma dense_ends : forall hqr garbage l ts tas e0 x P, layout_ok l -> Forall (lterm_ok l) ts -> dq_rows x = jrows ts -> dq_cols x = total l -> lm_params_ok P ->
  (forall lam, solves_problem hqr (jrows ts + total l) (total l) (above_diag true (jrows ts) (J_of l ts) (fun _ => lam)) (above_zero (jrows ts) (e_of ts))) ->
  map fst tas = ts -> Forall (linearises l (fun _ => 1)) tas -> ~ stationary l (fun _ => 1) ts ->
  rejections_end (total l) P (dq R) (dense_attempt hqr garbage) (step_cost tas) (dq_build l ts (eval_errors ts 0 e0) x).
Proof.
  intros hqr garbage l ts tas e0 x P Lo F Er Ec OK Hq Et A NS. set (x0 := dq_build l ts (eval_errors ts 0 e0) x).
  set (same := fun y : dq R => dq_rows y = jrows ts /\ dq_cols y = total l /\ (forall r q, (r < jrows ts)%nat -> (q < total l)%nat -> dq_J y r q = J_of l ts r q) /\ (forall r, (r < jrows ts)%nat -> dq_e y r = - e_of ts r)).
  assert (S0 : same x0).
  { split; auto. split; auto. split; [intros; apply dq_build_ok; auto|]. intros r Hr. change (dq_e x0) with (eval_errors ts 0 e0). rewrite eval_errors_ok by lia. rewrite Nat.sub_0_r. reflexivity. }
  assert (Step : forall y lam y' dx, same y -> dense_attempt hqr garbage y lam y' dx -> same y' /\ shifted (jrows ts) (total l) (Js l (fun _ => 1) ts) (e_of ts) (lam * lam) dx).
  { intros y lam y' dx (R1 & C1 & J1 & B1) At. unfold dense_attempt, dq_solve in At. cbn [dq_use dq_rows dq_cols dq_J dq_e dq_rhs dq_c] in At. rewrite R1, C1 in At. injection At as <- <-. split.
    - split; auto. split; auto. cbn [dq_J dq_e]. split.
      + intros r q Hr Hc. unfold resize_rows. rewrite (proj2 (Nat.ltb_lt r (jrows ts)) Hr), (proj2 (Nat.leb_gt (jrows ts) r) Hr). auto.
      + intros r Hr. unfold resize_vec. rewrite (proj2 (Nat.ltb_lt r (jrows ts)) Hr), (proj2 (Nat.leb_gt (jrows ts) r) Hr). auto.
    - apply jm_one; auto. match goal with |- shifted _ _ _ _ _ (hqr ?n ?m ?A ?b) => assert (Q : least_squares n m (above_diag true (jrows ts) (J_of l ts) (fun _ => lam)) (above_zero (jrows ts) (e_of ts)) (hqr n m A b)) end.
      { apply Hq.
        - intros r q Hr Hc. unfold above_diag, resize_rows. destruct (Nat.leb_spec (jrows ts) r) as [L|L]; [rewrite (proj2 (Nat.ltb_ge r (jrows ts)) L)|rewrite (proj2 (Nat.ltb_lt r (jrows ts)) L), J1 by auto]; auto.
        - intros r Hr. unfold above_zero, resize_vec. destruct (Nat.leb_spec (jrows ts) r) as [L|L]; [rewrite (proj2 (Nat.ltb_ge r (jrows ts)) L)|rewrite (proj2 (Nat.ltb_lt r (jrows ts)) L), B1 by auto]; auto. }
      revert Q. unfold least_squares, shifted. apply solves_ext.
      + intros p q Hp Hc. transitivity (damped_normal (jrows ts) (J_of l ts) (fun _ => lam) p q); [|unfold damped_normal; kr; ring]. rewrite <- (damped_split (jrows ts) (J_of l ts) (fun _ => lam) (total l) p q Hp Hc). unfold mmul, mtr, above_diag. cbn [andb]. apply ksum_ext. intros r Hr.
        rewrite (Nat.eqb_sym p), (Nat.eqb_sym q). destruct (r <? jrows ts)%nat; auto.
      + intros p Hp. unfold mvmul, mtr. rewrite ksum_split. rewrite (zeroR (total l)).
        2:{ intros r Hr. unfold above_zero. rewrite (proj2 (Nat.ltb_ge (jrows ts + r) (jrows ts))) by lia. kr. ring. }
        assert (A1 : ksum (jrows ts) (fun r => kmul (above_diag true (jrows ts) (J_of l ts) (fun _ => lam) r p) (above_zero (jrows ts) (e_of ts) r)) = - ksum (jrows ts) (fun r => kmul (J_of l ts r p) (e_of ts r))).
        { etransitivity; [|exact (@ksum_opp R RRing (jrows ts) _)]. apply ksum_ext. intros r Hr. unfold above_diag, above_zero. rewrite (proj2 (Nat.ltb_lt r (jrows ts)) Hr). kr. ring. }
        rewrite A1. kr. ring. }
  apply (run_ends (total l) P (dq R) (dense_attempt hqr garbage) (step_cost tas) x0 (fun _ y => same y) (shifted (jrows ts) (total l) (Js l (fun _ => 1) ts) (e_of ts)) OK).
  - intros lam y dx Pl At. destruct (Step x0 lam y dx S0 At) as (X1 & X2). split; auto. exists (lam * lam). split; [lra|auto].
  - intros lam y lam' y' dx Pl Gr Sa At. destruct (Step y lam' y' dx Sa At) as (X1 & X2). split; auto. exists (lam' * lam'). split; [lra|auto].
  - exact (cost_falls l (fun _ => 1) ts tas Lo F Et A NS).
Qed.
