(** * Gauss-Newton from a good first guess: whole runs *)
From Coq Require Import Reals Lra Lia Arith List Bool ZArith.
From Verif Require Import Lib_Ring Lib_Real Policy_Model Policy_Proofs Lin_Model Lin_Proofs Lin_Proofs2 Nlin_Model Nlin_Spec Nlin_Proofs GNConv_Spec GNConv_Proofs.
From Verif Require Optimizer2_Model.
Open Scope R_scope.

Section Run.
  Variables (n m : nat) (e : vec R -> vec R) (Jac : vec R -> mat R) (solver : mat R -> R -> vec R -> option (vec R)) (xs : vec R) (rho K mu : R).
  Hypothesis Rg : regular n m e Jac xs rho K mu.
  Notation rs := (norm m (e xs)).
  Notation q := (rate K mu rs rho).
  Notation c := (K / (2 * sqrt mu)).
  Hypothesis Small : q < 1.
  Hypothesis So : solves n m solver.
  Hypothesis Sw : solver_works n m e Jac solver xs rho.
  Variable opt : ropt.
  Notation po := (gn n m e Jac solver).
  Lemma q_pos : 0 <= q.
  Proof. apply (rate_pos n m e Jac xs rho K mu Rg); [destruct (rg_signs _ _ _ _ _ _ _ _ Rg); tauto|apply norm_pos]. Qed.
  Lemma c_pos : 0 <= c.
  Proof. destruct (rg_signs _ _ _ _ _ _ _ _ Rg) as (P1 & P2 & P3). pose proof (sqrt_lt_R0 mu P3). unfold Rdiv. apply Rmult_le_pos; auto. apply Rlt_le, Rinv_0_lt_compat. lra. Qed.
  Lemma pow_le1 : forall k, 0 <= q ^ k <= 1.
  Proof. intros k. pose proof q_pos. split; [apply pow_le; auto|]. rewrite <- (pow1 k). apply pow_incr. lra. Qed.

  Variable D0 : R.
  Hypothesis D0r : 0 <= D0 <= rho.
  Notation D l := (dist n (n_x (vec R) po l) xs).

  Record after (k : nat) (l : nst (vec R) po) : Prop := {
    af_it : n_it _ po l = Z.of_nat k; af_fail : n_fail _ po l = 0%Z; af_lsf : n_lsf _ po l = false;
    af_lin : D l <= q ^ k * D0;
    af_quad : rs = 0 -> c * D l <= (c * D0) ^ (2 ^ k);
    af_first : k = 0%nat -> n_mdx _ po l = o_dx opt + 1 /\ n_dJ _ po l = o_dJ opt + 1;
    af_short : (1 <= k)%nat -> n_mdx _ po l <= (1 + q) * q ^ (k - 1) * D0;
    af_near : (1 <= k)%nat -> (1 - q) * D l <= q * (sqrt (INR n) * n_mdx _ po l) }.

  Lemma after_step : forall k l, after k l -> after (S k) (n_iteration (vec R) vadd n m e po l).
  Proof.
    intros k l A. pose proof q_pos as Qp. pose proof (pow_le1 k) as Qk.
    assert (D l <= rho) as B. { eapply Rle_trans; [apply (af_lin _ _ A)|]. nra. }
    destruct (gn_iter n m e Jac solver xs rho K mu Rg So Sw l B (af_lsf _ _ A)) as (I1 & I2 & I3 & I4 & I5 & I6). set (l' := n_iteration (vec R) vadd n m e po l) in *.
    assert (0 <= D l) as Dp by apply norm_pos.
    assert (D l' <= q * D l) as C. { eapply Rle_trans; [exact I4|]. apply Rmult_le_compat_r; auto. apply (rate_mono n m e Jac xs rho K mu Rg); [auto|apply norm_pos]. }
    pose proof (af_lin _ _ A) as L. assert (q * D l <= q * (q ^ k * D0)) as C2 by (apply Rmult_le_compat_l; auto).
    constructor.
    - rewrite I2, (af_it _ _ A). lia.
    - rewrite I3. apply (af_fail _ _ A).
    - exact I1.
    - cbn [pow]. lra.
    - intros Z. pose proof (af_quad _ _ A Z) as Qd. rewrite Z in I4. unfold rate in I4. replace (K * D l / (2 * sqrt mu) + K * 0 / mu) with (c * D l) in I4 by (unfold Rdiv; ring).
      pose proof c_pos as Cp. assert (0 <= c * D l) as Cd by (apply Rmult_le_pos; auto).
      assert (c * D l' <= (c * D l) * (c * D l)) as G. { assert (c * D l' <= c * (c * D l * D l)) by (apply Rmult_le_compat_l; auto). lra. }
      eapply Rle_trans; [exact G|]. replace (2 ^ S k)%nat with (2 ^ k + 2 ^ k)%nat by (cbn [Nat.pow]; lia). rewrite pow_add. apply Rmult_le_compat; auto.
    - discriminate.
    - intros _. replace (S k - 1)%nat with k by lia. eapply Rle_trans; [exact I5|]. replace ((1 + q) * q ^ k * D0) with (q ^ k * D0 + q * (q ^ k * D0)) by ring. lra.
    - intros _. assert (q * D l <= q * (sqrt (INR n) * n_mdx _ po l' + D l')) by (apply Rmult_le_compat_l; auto). lra.
  Qed.

  Lemma after_loop : forall f k l, after k l -> (Z.to_nat (o_max opt - Z.of_nat k) <= f)%nat ->
    exists k' l', n_loop (vec R) vadd n m e po opt f l = Some l' /\ after k' l' /\ n_continue _ po opt l' = false /\
      (k' = k \/ exists lp, (k <= k' - 1)%nat /\ (1 <= k')%nat /\ after (k' - 1) lp /\ n_continue _ po opt lp = true).
  Proof.
    induction f as [|f IH]; intros k l A F; cbn [n_loop]; destruct (n_continue _ po opt l) eqn:C; try (exists k, l; auto; fail).
    - exfalso. unfold n_continue in C. rewrite (af_it _ _ A) in C. destruct (Z.ltb_spec (Z.of_nat k) (o_max opt)); [lia|discriminate].
    - assert (Z.of_nat k < o_max opt)%Z as Lt. { unfold n_continue in C. rewrite (af_it _ _ A) in C. destruct (Z.ltb_spec (Z.of_nat k) (o_max opt)); [auto|discriminate]. }
      destruct (IH (S k) _ (after_step k l A)) as (k' & l' & G1 & G2 & G3 & G4); [lia|]. exists k', l'. split; auto. split; auto. split; auto. right.
      destruct G4 as [->|(lp & H1 & H2 & H3 & H4)].
      + exists l. replace (S k - 1)%nat with k by lia. split; [lia|]. split; [lia|]. auto.
      + exists lp. split; [lia|]. auto.
  Qed.
End Run.

Theorem gn_converges : forall n m e Jac solver xs rho K mu, regular n m e Jac xs rho K mu -> rate K mu (norm m (e xs)) rho < 1 -> solves n m solver -> solver_works n m e Jac solver xs rho ->
  forall opt x, dist n x xs <= rho -> let q := rate K mu (norm m (e xs)) rho in let po := gn n m e Jac solver in
  exists l, n_optimize (vec R) vadd n m e po opt x = Some l /\ let k := Z.to_nat (n_it _ po l) in let far := dist n (n_x _ po l) xs in
    far <= q ^ k * dist n x xs /\
    (norm m (e xs) = 0 -> K / (2 * sqrt mu) * far <= (K / (2 * sqrt mu) * dist n x xs) ^ (2 ^ k)) /\
    (n_status _ po opt l = Optimizer2_Model.DX -> (1 - q) * far <= q * (sqrt (INR n) * o_dx opt)) /\
    ((2 <= k)%nat -> o_dx opt < (1 + q) * q ^ (k - 2) * dist n x xs) /\
    ((2 <= o_max opt)%Z -> (1 + q) * q ^ Z.to_nat (o_max opt - 2) * dist n x xs <= o_dx opt ->
       n_status _ po opt l = Optimizer2_Model.DX \/ n_status _ po opt l = Optimizer2_Model.DOBJECTIVE).
Proof.
  intros n m e Jac solver xs rho K mu Rg Sm So Sw opt x B q po. subst po.
  pose proof (q_pos n m e Jac xs rho K mu Rg) as Qp. fold q in Qp, Sm.
  assert (0 <= dist n x xs) as Dp by apply norm_pos.
  assert (after n m e Jac solver xs rho K mu opt (dist n x xs) 0 (n_start (vec R) m e (gn n m e Jac solver) opt x)) as A0.
  { constructor; try reflexivity; try (intros; lia).
    - cbn [pow n_start n_x]. lra.
    - intros _. cbn [Nat.pow pow n_start n_x]. lra.
    - intros _. split; reflexivity. }
  destruct (after_loop n m e Jac solver xs rho K mu Rg Sm So Sw opt (dist n x xs) (conj Dp B) (Z.to_nat (o_max opt) + Z.to_nat (o_max opt)) 0 _ A0) as (k & l & G1 & G2 & G3 & G4); [lia|].
  exists l. split; [exact G1|]. cbv zeta. rewrite (af_it _ _ _ _ _ _ _ _ _ _ _ _ _ G2), Nat2Z.id. 
  assert ((2 <= k)%nat -> o_dx opt < (1 + q) * q ^ (k - 2) * dist n x xs) as Lim.
  { intros Hk. destruct G4 as [->|(lp & H1 & H2 & H3 & H4)]; [lia|]. pose proof (af_short _ _ _ _ _ _ _ _ _ _ _ _ _ H3 ltac:(lia)) as Sh. replace (k - 1 - 1)%nat with (k - 2)%nat in Sh by lia. fold q in Sh.
    unfold n_continue in H4. rewrite (af_lsf _ _ _ _ _ _ _ _ _ _ _ _ _ H3), orb_false_r in H4. apply andb_true_iff in H4 as [_ H4]. apply andb_true_iff in H4 as [H4 _]. apply rlt_true in H4. lra. }
  split; [exact (af_lin _ _ _ _ _ _ _ _ _ _ _ _ _ G2)|]. split; [exact (af_quad _ _ _ _ _ _ _ _ _ _ _ _ _ G2)|]. split; [|split; [exact Lim|]].
  - intros S. apply dx_facts in S as [S1 S2]. destruct k as [|k]; [destruct (af_first _ _ _ _ _ _ _ _ _ _ _ _ _ G2 eq_refl) as [F _]; lra|].
    pose proof (af_near _ _ _ _ _ _ _ _ _ _ _ _ _ G2 ltac:(lia)) as Nr. fold q in Nr. eapply Rle_trans; [exact Nr|]. apply Rmult_le_compat_l; auto. apply Rmult_le_compat_l; auto. apply sqrt_pos.
  - intros M2 Hm. assert (Z.of_nat k < o_max opt)%Z as Lt.
    { destruct (Z.ltb_spec (Z.of_nat k) (o_max opt)) as [|Ge]; auto. exfalso. specialize (Lim ltac:(lia)).
      assert (q ^ (k - 2) <= q ^ Z.to_nat (o_max opt - 2)) as Mo.
      { replace (k - 2)%nat with (Z.to_nat (o_max opt - 2) + (k - 2 - Z.to_nat (o_max opt - 2)))%nat by lia. rewrite pow_add.
        pose proof (pow_le1 n m e Jac xs rho K mu Rg Sm (k - 2 - Z.to_nat (o_max opt - 2))) as P1. pose proof (pow_le1 n m e Jac xs rho K mu Rg Sm (Z.to_nat (o_max opt - 2))) as P2. fold q in P1, P2. nra. }
      assert ((1 + q) * q ^ (k - 2) * dist n x xs <= (1 + q) * q ^ Z.to_nat (o_max opt - 2) * dist n x xs) by (apply Rmult_le_compat_r; auto; apply Rmult_le_compat_l; lra). lra. }
    unfold n_status. unfold n_continue in G3. rewrite (af_it _ _ _ _ _ _ _ _ _ _ _ _ _ G2), (af_fail _ _ _ _ _ _ _ _ _ _ _ _ _ G2), (af_lsf _ _ _ _ _ _ _ _ _ _ _ _ _ G2) in *.
    rewrite (proj2 (Z.leb_gt _ _)) by lia. rewrite (proj2 (Z.leb_gt _ _)) by lia. cbn [orb]. rewrite (proj2 (Z.ltb_lt _ _)) in G3 by lia. rewrite (proj2 (Z.ltb_lt _ _)) in G3 by lia. cbn [andb] in G3.
    rewrite orb_false_r in G3. apply andb_false_iff in G3. destruct (rle (n_mdx (vec R) (gn n m e Jac solver) l) (o_dx opt)) eqn:E1; auto. apply rle_false in E1. destruct G3 as [G3|G3]; apply rlt_false in G3; [lra|].
    rewrite (proj2 (rle_true _ _)) by lra. auto.
Qed.
