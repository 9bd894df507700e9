(** * Levenberg-Marquardt on nonlinear problems: the damping and the progress of a run *)
From Coq Require Import Reals Lra Lia Arith List Bool ZArith Psatz.
From Verif Require Import Lib_Ring Lib_Real Policy_Model Policy_Spec Lin_Model Lin_Spec Lin_Proofs Lin_Proofs2 Nlin_Model Nlin_Spec Nlin_Proofs LMConv_Spec LMConv_Proofs.
Open Scope R_scope.

Lemma odd_opp : forall k x, Nat.Odd k -> (- x) ^ k = - x ^ k.
Proof. intros k x (j & ->). rewrite !pow_add, !pow_mult. replace ((- x) ^ 2) with (x ^ 2) by ring. ring. Qed.
Lemma odd_nonneg : forall k x, 0 <= x -> 0 <= x ^ k.
Proof. intros. apply pow_le. auto. Qed.
Lemma factor_facts : forall P r, lm_params_ok P -> Nat.Odd (p P) -> 0 < r ->
  exists f, lm_factor P (Fin r) = Some f /\ 1 / gamma P <= f <= beta P /\ (1 / 2 <= r -> f <= 1) /\ (r <= 1 / 4 -> 1 + (beta P - 1) * (1 / 2) ^ p P <= f).
Proof.
  intros P r (_ & G & B & _ & _) O Rp. cbn [lm_factor]. eexists. split; [reflexivity|].
  assert (1 / gamma P <= 1) as G1. { apply Rmult_le_reg_r with (gamma P); [lra|]. unfold Rdiv. rewrite Rmult_assoc, Rinv_l by lra. lra. }
  set (q := (2 * r - 1) ^ p P).
  assert (- 1 <= q) as Q1.
  { unfold q. destruct (Rle_dec 0 (2 * r - 1)) as [H|H]; [pose proof (odd_nonneg (p P) _ H); lra|]. replace (2 * r - 1) with (- (1 - 2 * r)) by ring. rewrite odd_opp by auto.
    assert ((1 - 2 * r) ^ p P <= 1 ^ p P) as Q by (apply pow_incr; lra). rewrite pow1 in Q. lra. }
  assert (1 / 2 <= r -> 0 <= q) as Q2 by (intros; apply odd_nonneg; lra).
  assert (r <= 1 / 4 -> q <= - (1 / 2) ^ p P) as Q3.
  { intros H. unfold q. replace (2 * r - 1) with (- (1 - 2 * r)) by ring. rewrite odd_opp by auto. assert ((1 / 2) ^ p P <= (1 - 2 * r) ^ p P) by (apply pow_incr; lra). lra. }
  destruct (rlt (1 - (beta P - 1) * q) (1 / gamma P)) eqn:E.
  - apply rlt_true in E. split; [lra|]. split; [lra|]. intros H. specialize (Q3 H). nra.
  - apply rlt_false in E. split; [split; [lra|nra]|]. split; [intros H; specialize (Q2 H); nra|]. intros H. specialize (Q3 H). nra.
Qed.

Section Run.
  Variables (X : Type) (move : X -> vec R -> X) (n m : nat) (e : X -> vec R) (Jac : X -> mat R) (solver : mat R -> R -> vec R -> option (vec R)) (opt : ropt) (P : lmparams).
  Variables (c L K kap mum delta psi : R).
  Hypothesis So : answers n m solver.
  Hypothesis Oo : 0 <= o_dx opt /\ 0 <= o_dJ opt.
  Hypothesis Ta : tame n m move e Jac c L K.
  Hypothesis K0 : 0 <= K.
  Hypothesis St : steady P.
  Hypothesis Kp : 1 < kap <= 2 /\ gamma P * kap * kap <= 2 * mum /\ kap <= 1 + (beta P - 1) * (1 / 2) ^ p P.
  Hypothesis Mu : 1 <= mum /\ mum <= muInit P /\ mum <= beta P.
  Hypothesis De : 0 <= delta.
  Hypothesis Ps : 0 < psi <= lambdaInit P.
  Notation po := (n_levenberg_marquardt X n m e Jac solver P).
  Notation cost := (n_cost X m e).
  Notation big := (big c K).
  Notation den := (den X n m e Jac).
  Notation eqn := (eqn X n m e Jac).

  Definition tiny : R := 1 / 10 ^ 16.
  Lemma tiny_pos : 0 < tiny.
  Proof. unfold tiny. apply Rdiv_lt_0_compat; [lra|apply pow_lt; lra]. Qed.
  Lemma tiny10 : 1 / 10 ^ 15 = 10 * tiny.
  Proof. unfold tiny. field. Qed.
  Definition lmin : R := Rmin (lambdaInit P) (tiny / gamma P).
  Definition Cc : R := (beta P + muInit P) / lmin.
  Definition lmax : R := lambdaInit P + beta P * big + 2 * Cc * big * big + 1.

  Lemma lmin_pos : 0 < lmin.
  Proof. clear Mu Kp De Ps. unfold lmin. destruct St as ((A & G & _) & _). apply Rmin_glb_lt; auto. apply Rdiv_lt_0_compat; [apply tiny_pos|lra]. Qed.
  Lemma lmin_tiny : gamma P * lmin <= tiny.
  Proof. clear Mu Kp De Ps. unfold lmin. destruct St as ((A & G & _) & _). pose proof (Rmin_r (lambdaInit P) (tiny / gamma P)). replace tiny with (gamma P * (tiny / gamma P)) at 2 by (field; lra). apply Rmult_le_compat_l; lra. Qed.
  Lemma lmin_init : lmin <= lambdaInit P.
  Proof. apply Rmin_l. Qed.
  Lemma Cc_pos : 0 < Cc.
  Proof. clear Mu Kp De Ps. unfold Cc. destruct St as ((A & G & B & _ & D) & _). apply Rdiv_lt_0_compat; [lra|apply lmin_pos]. Qed.
  Lemma Cc_min : forall lam, lmin <= lam -> beta P <= Cc * lam /\ muInit P <= Cc * lam.
  Proof.
    clear Mu Kp De Ps. intros lam H. pose proof lmin_pos as L1. destruct St as ((A & G & B & _ & D) & _). assert (Cc * lmin = beta P + muInit P) as E by (unfold Cc; field; lra).
    assert (Cc * lmin <= Cc * lam) by (apply Rmult_le_compat_l; auto; pose proof Cc_pos; lra). lra.
  Qed.
  Hypothesis c0 : 0 <= c.
  Lemma big_ge : 1 <= big.
  Proof. clear Mu Kp De Ps. unfold LMConv_Proofs.big. pose proof (MM_pos c K c0 K0). lra. Qed.
  Lemma lmax_ge : lambdaInit P <= lmax /\ beta P * big <= lmax /\ 2 * Cc * big * big <= lmax /\ 1 <= lmax.
  Proof.
    clear Mu Kp De Ps. unfold lmax. pose proof big_ge as B1. pose proof Cc_pos as C1. destruct St as ((A & G & B & _ & D) & _). assert (0 <= beta P * big) by (apply Rmult_le_pos; lra).
    assert (0 <= 2 * Cc * big * big) by (apply Rmult_le_pos; [apply Rmult_le_pos|]; lra). lra.
  Qed.

  Definition inv (k : nat) (l : nst X po) : Prop :=
    n_lsf X po l = false /\ n_pJ X po l <= n_J X po l /\ n_pJ X po l = cost (n_x X po l) /\ cost (n_x X po l) <= c /\
    let s := fst (n_pol X po l) in exists lam, lambda s = Some lam /\ lmin <= lam <= lmax /\ mum <= mu s <= Cc * lam /\
    ((bfirst (lm_base s) = true /\ n_pf X po l = false /\ k = 0%nat /\ lam = lambdaInit P /\ n_J X po l = n_pJ X po l /\ n_mdx X po l = o_dx opt + 1) \/
     (bfirst (lm_base s) = false /\ exists xp r g b, k = S (g + b) /\ snd (n_pol X po l) = Some xp /\ lm_sys s = n_system X n m e Jac xp /\ eqn lam xp (n_d X po l) /\
        n_mdx X po l = maxabs n (n_d X po l) /\ cost xp <= c /\ cost xp <= c - INR g * delta /\ 4 * delta <= den lam xp (n_d X po l) /\
        psi * kap ^ b <= (if r : bool then lam / (gamma P * kap) else lam) * gamma P ^ g /\
        cost xp <= bJ (lm_base s) /\ (r = false -> bJ (lm_base s) = cost xp) /\
        if n_pf X po l then n_x X po l = xp /\ lam < big else n_x X po l = move xp (n_d X po l) /\ n_J X po l = n_pJ X po l /\ n_dJ X po l = cost xp - n_J X po l /\ 0 <= n_dJ X po l)).

  (* the numbers of the next call *)
  Definition ready (k : nat) (l : nst X po) (lam' m' : R) : Prop :=
    lmin <= lam' <= lmax /\ mum <= m' <= Cc * lam' /\ exists g b r, k = (g + b)%nat /\ cost (n_x X po l) <= c - INR g * delta /\
      psi * kap ^ b <= (if r : bool then lam' / (gamma P * kap) else lam') * gamma P ^ g /\ (r = false -> n_J X po l = cost (n_x X po l)).

  Lemma pf_numbers : forall lam mu_ g b r (kg := gamma P), lmin <= lam -> lam < big -> mum <= mu_ <= Cc * lam ->
    psi * kap ^ b <= (if r : bool then lam / (gamma P * kap) else lam) * gamma P ^ g ->
    lmin <= lam * (mu_ * 2) <= lmax /\ mum <= mu_ * 2 <= Cc * (lam * (mu_ * 2)) /\
    psi * kap ^ S b <= lam * (mu_ * 2) / (gamma P * kap) * gamma P ^ g.
  Proof.
    intros lam mu_ g b r kg L1 L2 M H. pose proof lmin_pos as L0. pose proof Cc_pos as C0. pose proof big_ge as B1. destruct lmax_ge as (_ & _ & X1 & _). destruct Mu as (U1 & U2 & U3). destruct Kp as (K1 & K2 & K3).
    destruct St as ((A & G & B & _ & D) & _). assert (2 * lam <= lam * (mu_ * 2)) as T by nra. split; [split; [lra|]|split; [split; [lra|]|]].
    - apply Rle_trans with (2 * Cc * big * big); auto. assert (mu_ <= Cc * big) by (apply Rle_trans with (Cc * lam); [lra|apply Rmult_le_compat_l; lra]).
      replace (lam * (mu_ * 2)) with (2 * (mu_ * lam)) by ring. replace (2 * Cc * big * big) with (2 * ((Cc * big) * big)) by ring. apply Rmult_le_compat_l; [lra|]. apply Rmult_le_compat; lra.
    - apply Rle_trans with (Cc * lam * 2); [lra|]. replace (Cc * lam * 2) with (Cc * (2 * lam)) by ring. apply Rmult_le_compat_l; lra.
    - cbn [pow]. pose proof (pow_lt (gamma P) g ltac:(lra)) as Gg. replace (psi * (kap * kap ^ b)) with (kap * (psi * kap ^ b)) by ring.
      apply Rle_trans with (kap * ((if r then lam / (gamma P * kap) else lam) * gamma P ^ g)); [apply Rmult_le_compat_l; lra|].
      rewrite <- Rmult_assoc. apply Rmult_le_compat_r; [lra|].
      assert (0 < gamma P * kap) as GK by nra. apply Rmult_le_reg_r with (gamma P * kap); auto. unfold Rdiv at 2. rewrite (Rmult_assoc (lam * (mu_ * 2))), Rinv_l by lra.
      destruct r.
      + unfold Rdiv. rewrite (Rmult_assoc kap), (Rmult_assoc lam), Rinv_l by lra. assert (kap <= mu_ * 2) by nra. nra.
      + assert (gamma P * kap * kap <= 2 * mu_) by lra. nra.
  Qed.
  Lemma ok_numbers : forall lam mu_ g b r xp d bJ_ J r0, lmin <= lam <= lmax -> mum <= mu_ <= Cc * lam -> eqn lam xp d -> cost xp <= c -> cost xp <= c - INR g * delta -> 4 * delta <= den lam xp d ->
    psi * kap ^ b <= (if r : bool then lam / (gamma P * kap) else lam) * gamma P ^ g -> cost xp <= bJ_ -> (r = false -> bJ_ = cost xp) ->
    J = cost (move xp d) -> J < cost xp -> 0 < den lam xp d -> r0 = (bJ_ - J) / den lam xp d ->
    exists lam' m', (if rlt tiny lam then (option_map (fun f => lam * f) (lm_factor P (Fin r0)), beta P, true) else (Some (1 / 10 ^ 15), mu_, true)) = (Some lam', m', true) /\
      lmin <= lam' <= lmax /\ mum <= m' <= Cc * lam' /\ exists g' b', S (g + b) = (g' + b')%nat /\ J <= c - INR g' * delta /\ psi * kap ^ b' <= lam' * gamma P ^ g'.
  Proof.
    intros lam mu_ g b r xp d bJ_ J r0 L1 M E Cx Cg Dd H Bj Br EJ Jl Dp Er. pose proof lmin_pos as L0. pose proof Cc_pos as C0. pose proof big_ge as B1. destruct lmax_ge as (_ & X2 & X1 & X3).
    destruct Mu as (U1 & U2 & U3). destruct Kp as (K1 & K2 & K3). pose proof tiny_pos as T0. destruct St as (Pk & Od & _). pose proof Pk as (A & G & B & _ & D).
    assert (0 < r0) as R0 by (rewrite Er; apply Rdiv_lt_0_compat; lra).
    assert (r0 * den lam xp d = bJ_ - J) as Rr by (rewrite Er; field; lra).
    assert (big <= lam -> J <= cost xp - den lam xp d / 2) as Tr. { intros Hb. rewrite EJ. apply (trusted X move n m e Jac c K c0 K0); auto. apply Ta; auto. }
    pose proof (pow_lt (gamma P) g ltac:(lra)) as Gg. pose proof (pow_lt kap b ltac:(lra)) as Gb.
    (* the new damping *)
    assert (exists lam' m', (if rlt tiny lam then (option_map (fun f => lam * f) (lm_factor P (Fin r0)), beta P, true) else (Some (1 / 10 ^ 15), mu_, true)) = (Some lam', m', true) /\
      lmin <= lam' <= lmax /\ mum <= m' <= Cc * lam' /\ lam <= gamma P * lam' /\ (r0 <= 1 / 4 -> kap * lam <= lam')) as (lam' & m' & N1 & N2 & N3 & N4 & N5).
    { destruct (rlt tiny lam) eqn:Et.
      - apply rlt_true in Et. destruct (factor_facts P r0 Pk Od R0) as (f & Ef & (F1 & F2) & F3 & F4). rewrite Ef. cbn [option_map]. exists (lam * f), (beta P). split; [reflexivity|].
        assert (1 <= gamma P * f) as Gf. { apply Rle_trans with (gamma P * (1 / gamma P)); [right; field; lra|apply Rmult_le_compat_l; lra]. }
        assert (lam <= gamma P * (lam * f)) as Q by nra.
        assert (lmin <= lam * f) as Q2. { pose proof lmin_tiny. apply Rmult_le_reg_l with (gamma P); lra. }
        split; [split; auto|split; [split; [lra|apply Cc_min; auto]|split; auto]].
        + destruct (Rlt_le_dec lam big) as [Hb|Hb].
          * apply Rle_trans with (beta P * big); auto. rewrite Rmult_comm. assert (0 <= f) by nra. apply Rmult_le_compat; lra.
          * assert (1 / 2 <= r0) as H2. { specialize (Tr Hb). apply Rmult_le_reg_r with (den lam xp d); auto. rewrite Rr. lra. } specialize (F3 H2). nra.
        + intros H4. specialize (F4 H4). rewrite Rmult_comm. apply Rmult_le_compat_l; lra.
      - apply rlt_false in Et. exists (1 / 10 ^ 15), mu_. rewrite tiny10. split; [reflexivity|]. split; [split; [|]|split; [split; [lra|]|split]].
        + pose proof lmin_tiny. nra.
        + assert (10 * tiny <= 1). { unfold tiny. apply Rmult_le_reg_r with (10 ^ 16); [apply pow_lt; lra|]. unfold Rdiv. rewrite Rmult_1_l, Rmult_assoc, Rinv_l by (apply pow_nonzero; lra). cbn [pow]. lra. } lra.
        + apply Rle_trans with (Cc * lam); [lra|]. apply Rmult_le_compat_l; lra.
        + nra.
        + intros _. nra. }
    exists lam', m'. split; [exact N1|]. split; auto. split; auto.
    destruct (Rle_lt_dec (den lam xp d / 4) (cost xp - J)) as [Go|Ba].
    - exists (S g), b. split; [lia|]. split; [rewrite S_INR; lra|]. cbn [pow]. apply Rle_trans with (lam * gamma P ^ g).
      + eapply Rle_trans; [exact H|]. apply Rmult_le_compat_r; [lra|]. destruct r; [|lra]. apply Rmult_le_reg_r with (gamma P * kap); [nra|]. unfold Rdiv. rewrite Rmult_assoc, Rinv_l by nra. assert (1 <= gamma P * kap) by nra. nra.
      + rewrite <- Rmult_assoc. apply Rmult_le_compat_r; [lra|]. lra.
    - exists g, (S b). split; [lia|]. split; [lra|]. cbn [pow].
      replace (psi * (kap * kap ^ b)) with (kap * (psi * kap ^ b)) by ring. apply Rle_trans with (kap * ((if r then lam / (gamma P * kap) else lam) * gamma P ^ g)); [apply Rmult_le_compat_l; lra|].
      rewrite <- Rmult_assoc. apply Rmult_le_compat_r; [lra|]. destruct r.
      + replace (kap * (lam / (gamma P * kap))) with (lam / gamma P) by (field; lra). apply Rmult_le_reg_r with (gamma P); [lra|]. unfold Rdiv. rewrite Rmult_assoc, Rinv_l by lra. lra.
      + apply N5. rewrite (Br eq_refl) in Rr. apply Rmult_le_reg_r with (den lam xp d); auto. lra.
  Qed.

  Lemma den_pos : forall lam xp d, 0 < lam -> eqn lam xp d -> 0 < maxabs n d -> 0 < den lam xp d.
  Proof. intros lam xp d L1 E M. pose proof (den_ge X n m e Jac lam xp d L1 E) as D. pose proof (maxabs_sq n d) as Q. assert (0 < maxabs n d * maxabs n d) by nra. assert (0 < lam * lam) by nra. nra. Qed.

  Lemma call : forall k l, inv k l -> n_continue X po opt l = true ->
    exists lam' s', ready k l lam' (mu s') /\ lambda s' = Some lam' /\ bfirst (lm_base s') = false /\ bJ (lm_base s') = n_J X po l /\ lm_sys s' = n_system X n m e Jac (n_x X po l) /\
      exists d, n_lm_call X n m e Jac solver P (n_pol X po l) (n_J X po l) (n_pf X po l) (n_x X po l) (n_d X po l) = (true, d, (s', Some (n_x X po l))) /\ eqn lam' (n_x X po l) d.
  Proof.
    intros k l (Lf & Jp & Px & Cx & lam & L1 & L2 & M & I) C. set (s := fst (n_pol X po l)) in *. pose proof lmin_pos as L0. pose proof St as (Pk & _). pose proof Pk as (A & G & B & _ & D).
    unfold n_continue in C. rewrite Lf, orb_false_r in C. apply andb_true_iff in C as [_ C]. apply andb_true_iff in C as [C1 C2]. apply rlt_true in C1, C2.
    unfold n_lm_call. fold s.
    assert (exists lam' m', ready k l lam' m' /\
      (lm_builds n P s (n_J X po l) (n_pf X po l) (n_d X po l) = true \/ snd (n_pol X po l) = Some (n_x X po l) /\ lm_sys s = n_system X n m e Jac (n_x X po l)) /\
      forall cs, lm_solve n P s (n_d X po l) (mkCall (n_J X po l) (n_pf X po l) (n_system X n m e Jac (n_x X po l)) cs) =
        (fst cs, snd cs, mkLm (base_leave (base_enter (lm_base s) (mkCall (n_J X po l) (n_pf X po l) (n_system X n m e Jac (n_x X po l)) cs))) (Some lam') m'
           (if lm_builds n P s (n_J X po l) (n_pf X po l) (n_d X po l) then n_system X n m e Jac (n_x X po l) else lm_sys s))) as (lam' & m' & A1 & A3 & A4).
    { unfold lm_solve, lm_builds. cbn [base_enter bfirst cJ cpf cfresh csolve].
      destruct I as [(I1 & I2 & I3 & I4 & I5 & I6)|(I1 & xp & r & g & b & Ik & I2 & I3 & I4 & I5 & I6 & I7 & I8 & I9 & I10 & I11 & I12)].
      - rewrite I1. exists lam, (mu s). split; [|split; [auto|intros cs; rewrite L1; reflexivity]].
        split; [exact L2|]. split; [exact M|]. exists 0%nat, 0%nat, false. split; [exact I3|]. split; [cbn [INR]; lra|]. split; [rewrite I4; cbn [pow]; lra|]. intros _. congruence.
      - rewrite I1. cbn [base_enter bfirst cJ cpf]. unfold lm_update. destruct (n_pf X po l).
        + destruct I12 as [Ix Ib]. rewrite L1. cbn [option_map snd]. exists (lam * (mu s * 2)), (mu s * 2).
          destruct (pf_numbers lam (mu s) g b r (proj1 L2) Ib M I9) as (N1 & N2 & N3).
          split; [|split; [right; rewrite Ix; auto|intros; reflexivity]]. split; [exact N1|]. split; [exact N2|]. exists g, (S b), true. split; [lia|]. split; [rewrite Ix; exact I7|]. split; [exact N3|discriminate].
        + destruct I12 as (Ix & Ij & Id & I0). unfold getLmRho. cbn [lambda lm_base lm_sys get_dJ bpJ bJ]. rewrite L1, I3. cbn [rhs n_system].
          rewrite Rabs_pos_eq in C2 by lra. rewrite I5 in C1. assert (0 < lam) as Lp by lra.
          pose proof (den_pos lam xp _ Lp I4 ltac:(lra)) as Dp.
          unfold get_dJ. cbn [bpJ bJ base_enter cpf cJ lm_base lambda lm_sys rhs n_system].
          fold (den lam xp (n_d X po l)).
          destruct (ok_numbers lam (mu s) g b r xp (n_d X po l) (bJ (lm_base s)) (n_J X po l) ((bJ (lm_base s) - n_J X po l) / den lam xp (n_d X po l)) L2 M I4 I6 I7 I8 I9 I10 I11
            ltac:(rewrite Ij, Px, Ix; reflexivity) ltac:(lra) Dp eq_refl) as (lam' & m' & N1 & N2 & N3 & g' & b' & N4 & N5 & N6).
          assert (xdiv (bJ (lm_base s) - n_J X po l) (den lam xp (n_d X po l)) = Fin ((bJ (lm_base s) - n_J X po l) / den lam xp (n_d X po l))) as Ex.
          { unfold xdiv. destruct (Req_EM_T (den lam xp (n_d X po l)) 0); [lra|reflexivity]. }
          rewrite Ex. assert (xle (Fin ((bJ (lm_base s) - n_J X po l) / den lam xp (n_d X po l))) 0 = false) as Xr by (cbn [xle]; apply rle_false; apply Rdiv_lt_0_compat; lra). rewrite Xr.
          fold tiny. rewrite N1. cbn [snd]. exists lam', m'. split; [|split; [auto|intros; reflexivity]].
          split; [exact N2|]. split; [exact N3|]. exists g', b', false. split; [lia|]. split; [rewrite <- Px, <- Ij; exact N5|]. split; [exact N6|]. intros _. congruence. }
    rewrite A4. cbn [snd lambda].
    set (at_ := if lm_builds n P s (n_J X po l) (n_pf X po l) (n_d X po l) then Some (n_x X po l) else snd (n_pol X po l)).
    assert (at_ = Some (n_x X po l)) as At by (unfold at_; destruct (lm_builds n P s (n_J X po l) (n_pf X po l) (n_d X po l)); auto; destruct A3 as [A3|[A3 _]]; [discriminate|auto]).
    rewrite At. destruct (n_reply X m e Jac solver (n_x X po l) lam' (n_d X po l)) as [ok d] eqn:R. rewrite A4. cbn [fst snd].
    assert (ok = true) as ->.
    { unfold n_reply in R. pose proof A1 as (Q & _). assert (0 < lam') as Q0 by lra. destruct (solver (Jac (n_x X po l)) lam' (n_rhs X m e Jac (n_x X po l))) eqn:E; [congruence|]. exfalso. exact (proj2 So _ _ _ Q0 E). }
    exists lam', (mkLm (base_leave (base_enter (lm_base s) (mkCall (n_J X po l) (n_pf X po l) (n_system X n m e Jac (n_x X po l)) (true, d)))) (Some lam') m'
      (if lm_builds n P s (n_J X po l) (n_pf X po l) (n_d X po l) then n_system X n m e Jac (n_x X po l) else lm_sys s)). split; [exact A1|]. split; [reflexivity|]. split; [reflexivity|]. split; [reflexivity|]. split.
    - cbn [lm_sys]. destruct (lm_builds n P s (n_J X po l) (n_pf X po l) (n_d X po l)); auto. destruct A3 as [A3|[_ A3]]; [discriminate|auto].
    - exists d. split; [rewrite ?A4; cbn [fst snd lambda]; rewrite R; cbn [fst snd]; reflexivity|]. exact (reply_eqn X n m e Jac solver (proj1 So) _ _ _ _ R).
  Qed.

  Lemma inv_step : forall k l, inv k l -> n_continue X po opt l = true ->
    (forall lam d, lmin <= lam <= lmax -> eqn lam (n_x X po l) d -> 4 * delta <= den lam (n_x X po l) d) -> inv (S k) (n_iteration X move n m e po l).
  Proof.
    intros k l I C Hd. destruct (call k l I C) as (lam & s' & (R1 & R2 & g & b & r & R3 & R4 & R5 & R6) & S2 & S4 & S5 & S6 & d & Ec & E).
    destruct I as (Lf & Jp & Px & Cx & _). specialize (Hd lam d R1 E).
    unfold n_iteration. cbn [np_solve np_reverts n_levenberg_marquardt]. rewrite Ec.
    destruct (rlt (n_pJ X po l - n_cost X m e (move (n_x X po l) d)) 0) eqn:Dd.
    - apply rlt_true in Dd. unfold inv. cbn [n_lsf n_pJ n_J n_pol fst snd n_d n_mdx n_pf n_x n_dJ]. split; [auto|]. split; [lra|]. split; [auto|]. split; [auto|]. exists lam. split; auto. split; auto. split; auto. right. split; auto.
      exists (n_x X po l), r, g, b. split; [lia|]. split; auto. split; auto. split; auto. split; auto. split; auto. split; auto. split; auto. split; auto. split; [rewrite S5, <- Px; auto|]. split; [rewrite S5; auto|]. split; auto.
      destruct (Rlt_le_dec lam big) as [|Hb]; auto. pose proof (trusted X move n m e Jac c K c0 K0 lam (n_x X po l) d Hb Cx (proj2 (Ta _ Cx)) E). lra.
    - apply rlt_false in Dd. unfold inv. cbn [n_lsf n_pJ n_J n_pol fst snd n_d n_mdx n_pf n_x n_dJ]. split; [auto|]. split; [lra|]. split; [auto|]. split; [lra|]. exists lam. split; auto. split; auto. split; auto. right. split; auto.
      exists (n_x X po l), r, g, b. split; [lia|]. split; auto. split; auto. split; auto. split; auto. split; auto. split; auto. split; auto. split; auto. split; [rewrite S5, <- Px; auto|]. split; [rewrite S5; auto|].
      split; auto. split; auto. split; lra.
  Qed.
  Lemma count_step : forall k l, inv k l -> n_continue X po opt l = true ->
    n_it X po (n_iteration X move n m e po l) = (n_it X po l + 1)%Z /\ (n_fail X po (n_iteration X move n m e po l) <= n_fail X po l + 1)%Z.
  Proof.
    intros k l I C. destruct (call k l I C) as (lam & s' & _ & _ & _ & _ & _ & d & Ec & _). unfold n_iteration. cbn [np_solve np_reverts n_levenberg_marquardt]. rewrite Ec.
    destruct (rlt (n_pJ X po l - n_cost X m e (move (n_x X po l) d)) 0); cbn [n_it n_fail]; lia.
  Qed.
  Lemma inv_start : forall x, cost x <= c -> inv 0 (n_start X m e po opt x).
  Proof.
    intros x Cx. unfold inv. cbn. split; auto. split; [lra|]. split; auto. split; auto. exists (lambdaInit P). split; auto. destruct Mu as (U1 & U2 & U3). destruct lmax_ge as (Q & _). pose proof lmin_init as Q2. split; [split; auto|]. split; [split; auto; apply Cc_min; auto|]. left. repeat split.
  Qed.
End Run.

(* counting can begin anew at any state of the run *)
Lemma inv_restart : forall X move n m (e : X -> vec R) Jac solver opt P c L K kap mum delta psi, answers n m solver -> 0 <= o_dx opt /\ 0 <= o_dJ opt -> tame n m move e Jac c L K -> 0 <= K -> steady P ->
  (1 < kap <= 2 /\ gamma P * kap * kap <= 2 * mum /\ kap <= 1 + (beta P - 1) * (1 / 2) ^ p P) -> (1 <= mum /\ mum <= muInit P /\ mum <= beta P) -> 0 <= delta -> 0 < psi -> psi * (gamma P * kap) <= lmin P -> 0 <= c ->
  forall k l, inv X move n m e Jac solver opt P c K kap mum 0 psi k l -> n_continue X (n_levenberg_marquardt X n m e Jac solver P) opt l = true ->
    (forall lam d, lmin P <= lam <= lmax P c K -> eqn X n m e Jac lam (n_x X _ l) d -> 4 * delta <= den X n m e Jac lam (n_x X _ l) d) ->
    inv X move n m e Jac solver opt P c K kap mum delta psi 1 (n_iteration X move n m e (n_levenberg_marquardt X n m e Jac solver P) l).
Proof.
  intros X move n m e Jac solver opt P c L K kap mum delta psi So Oo Ta K0 St Kp Mu De P0 P1 c0 k l I C Hd. pose proof (lmin_init P) as Li. pose proof St as ((A & G & _) & _).
  assert (1 <= gamma P * kap) as GK by (destruct Kp; nra). assert (psi <= lmin P) as P2 by nra.
  destruct (call X move n m e Jac solver opt P c L K kap mum 0 psi So Oo Ta K0 St Kp Mu (conj P0 (Rle_trans _ _ _ P2 Li)) c0 k l I C) as (lam & s' & (R1 & R2 & _ & _ & r & _ & _ & _ & R6) & S2 & S4 & S5 & S6 & d & Ec & E).
  destruct I as (Lf & Jp & Px & Cx & _). specialize (Hd lam d R1 E).
  assert (psi * kap ^ 0 <= (if r then lam / (gamma P * kap) else lam) * gamma P ^ 0) as R5.
  { cbn [pow]. rewrite !Rmult_1_r. destruct r; [|lra]. apply Rmult_le_reg_r with (gamma P * kap); [lra|]. unfold Rdiv. rewrite Rmult_assoc, Rinv_l by lra. lra. }
  unfold n_iteration. cbn [np_solve np_reverts n_levenberg_marquardt]. rewrite Ec.
  match goal with |- context [rlt ?a 0] => destruct (rlt a 0) eqn:Dd end.
  - apply rlt_true in Dd. unfold inv. cbn [n_lsf n_pJ n_J n_pol fst snd n_d n_mdx n_pf n_x n_dJ]. split; [auto|]. split; [lra|]. split; [auto|]. split; [auto|]. exists lam. split; auto. split; auto. split; auto. right. split; auto.
    exists (n_x X _ l), r, 0%nat, 0%nat. split; [reflexivity|]. split; auto. split; auto. split; auto. split; auto. split; auto. split; [cbn [INR]; lra|]. split; auto. split; auto. split; [rewrite S5, <- Px; auto|]. split; [rewrite S5; auto|]. split; auto.
    destruct (Rlt_le_dec lam (big c K)) as [|Hb]; auto. pose proof (trusted X move n m e Jac c K c0 K0 lam _ d Hb Cx (proj2 (Ta _ Cx)) E). lra.
  - apply rlt_false in Dd. unfold inv. cbn [n_lsf n_pJ n_J n_pol fst snd n_d n_mdx n_pf n_x n_dJ]. split; [auto|]. split; [lra|]. split; [auto|]. split; [lra|]. exists lam. split; auto. split; auto. split; auto. right. split; auto.
    exists (n_x X _ l), r, 0%nat, 0%nat. split; [reflexivity|]. split; auto. split; auto. split; auto. split; auto. split; auto. split; [cbn [INR]; lra|]. split; auto. split; auto. split; [rewrite S5, <- Px; auto|]. split; [rewrite S5; auto|].
    split; auto. split; auto. split; lra.
Qed.
