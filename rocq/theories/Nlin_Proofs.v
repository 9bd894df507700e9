(** * Nonlinear least-squares problems: what the status DX says about the gradient *)
From Coq Require Import Reals Lra Lia Arith List Bool ZArith.
From Verif Require Import Lib_Ring Lib_Real Policy_Model Policy_Spec Lin_Model Lin_Proofs Lin_Proofs2 Nlin_Model Nlin_Spec.
From Verif Require Optimizer2_Model.
Open Scope R_scope.

Lemma ksum_abs : forall k (f : nat -> R) b, (forall i, (i < k)%nat -> Rabs (f i) <= b) -> Rabs (ksum k f) <= INR k * b.
Proof.
  induction k as [|k IH]; intros f b F; [cbn; rewrite Rabs_R0; lra|]. rewrite S_INR. cbn [ksum].
  specialize (IH f b ltac:(intros; apply F; lia)). pose proof (F k ltac:(lia)). cbn [kadd RRing]. eapply Rle_trans; [apply Rabs_triang|]. lra.
Qed.

Section Run.
  Variables (X : Type) (move : X -> vec R -> X) (n m : nat) (e : X -> vec R) (Jac : X -> mat R) (solver : mat R -> R -> vec R -> option (vec R)).
  Hypothesis So : solves n m solver.
  Variable opt : ropt.
  Notation H x := (mmul m (mtr (Jac x)) (Jac x)).

  Definition eqn (lam : R) (x : X) (d : vec R) : Prop := forall p, (p < n)%nat -> mvmul n (H x) d p + lam * lam * d p = n_rhs X m e Jac x p.

  Lemma grad_bound : forall lam x d eps L, eqn lam x d -> maxabs n d <= eps -> entries_below n m Jac x L ->
    forall p, (p < n)%nat -> Rabs (gradient m e Jac x p) <= (INR n * L + lam * lam) * eps.
  Proof.
    intros lam x d eps L E M B p Hp. specialize (E p Hp). unfold n_rhs in E. unfold gradient.
    replace (mvmul m (mtr (Jac x)) (e x) p) with (- (mvmul n (H x) d p + lam * lam * d p)) by lra.
    assert (forall q, (q < n)%nat -> Rabs (d q) <= eps) as D by (intros q Hq; eapply Rle_trans; [apply maxabs_le; eauto|auto]).
    rewrite Rabs_Ropp. eapply Rle_trans; [apply Rabs_triang|].
    assert (Rabs (mvmul n (H x) d p) <= INR n * (L * eps)) as G1.
    { apply ksum_abs. intros q Hq. cbn [kmul RRing]. rewrite Rabs_mult. apply Rmult_le_compat; auto using Rabs_pos. }
    assert (Rabs (lam * lam * d p) <= lam * lam * eps) as G2.
    { rewrite Rabs_mult. rewrite (Rabs_pos_eq (lam * lam)) by (apply Rle_0_sqr). apply Rmult_le_compat_l; auto. apply Rle_0_sqr. }
    lra.
  Qed.

  Lemma reply_eqn : forall x lam dx d, n_reply X m e Jac solver x lam dx = (true, d) -> eqn lam x d.
  Proof. intros x lam dx d R p Hp. unfold n_reply in R. destruct (solver (Jac x) lam (n_rhs X m e Jac x)) as [y|] eqn:E; [|discriminate]. injection R as <-. exact (So _ _ _ _ E p Hp). Qed.

  Lemma n_loop_ind : forall po (Q : nst X po -> Prop),
    (forall l, Q l -> n_continue X po opt l = true -> Q (n_iteration X move n m e po l)) ->
    forall f l l', Q l -> n_loop X move n m e po opt f l = Some l' -> Q l'.
  Proof.
    intros po Q St. induction f as [|f IH]; intros l l' Hl R; cbn [n_loop] in R; destruct (n_continue X po opt l) eqn:C; try discriminate; try congruence.
    eapply IH; [|exact R]. auto.
  Qed.

  Lemma dx_facts : forall po l, n_status X po opt l = Optimizer2_Model.DX -> n_lsf X po l = false /\ n_mdx X po l <= o_dx opt.
  Proof.
    intros po l S. unfold n_status in S. destruct (o_max opt <=? n_it X po l)%Z; [discriminate|]. destruct (n_lsf X po l); [discriminate|]. cbn [orb] in S.
    destruct (o_max opt <=? n_fail X po l)%Z; [discriminate|]. destruct (rle (n_mdx X po l) (o_dx opt)) eqn:E; [split; auto; apply rle_true; auto|].
    destruct (rle (Rabs (n_dJ X po l)) (o_dJ opt)); discriminate.
  Qed.

  (** ** Gauss-Newton *)
  Section GN.
    Notation po := (n_gauss_newton X n m e Jac solver).
    Definition ginv (l : nst X po) : Prop := n_lsf X po l = true \/ n_mdx X po l = o_dx opt + 1 \/
      exists xp, n_x X po l = move xp (n_d X po l) /\ n_mdx X po l = maxabs n (n_d X po l) /\ eqn 0 xp (n_d X po l).
    Lemma ginv_step : forall l, ginv l -> ginv (n_iteration X move n m e po l).
    Proof.
      intros l I. unfold n_iteration. cbn [np_solve n_gauss_newton np_reverts]. unfold gn_solve. cbn [csolve cfresh].
      destruct (n_reply X m e Jac solver (n_x X po l) 0 (n_d X po l)) as [ok d] eqn:R. cbn [fst snd]. destruct ok; [|left; reflexivity].
      right. right. exists (n_x X po l). cbn [n_x n_d n_mdx]. split; auto. split; auto. eapply reply_eqn; eauto.
    Qed.
    Theorem gn_dx : forall x l, n_optimize X move n m e po opt x = Some l -> n_status X po opt l = Optimizer2_Model.DX ->
      exists xp d, maxabs n d <= o_dx opt /\ n_x X po l = move xp d /\
        forall L, entries_below n m Jac xp L -> forall p, (p < n)%nat -> Rabs (gradient m e Jac xp p) <= INR n * L * o_dx opt.
    Proof.
      intros x l R S. apply dx_facts in S as [S1 S2]. unfold n_optimize in R.
      apply (n_loop_ind po ginv) in R; [|intros; apply ginv_step; auto|right; left; reflexivity].
      destruct R as [R|[R|(xp & R1 & R2 & R3)]]; [congruence|lra|]. exists xp, (n_d X po l). rewrite R2 in S2. split; auto. split; auto.
      intros L B p Hp. pose proof (grad_bound 0 xp _ _ L R3 S2 B p Hp). lra.
    Qed.
  End GN.

  (** ** Line search *)
  Section LS.
    Variables (step : R) (reset : bool) (sc0 : R).
    Hypothesis St : 0 < step <= 1.
    Notation po := (n_line_search X n m e Jac solver step reset sc0).
    Definition sinv (l : nst X po) : Prop := (0 <= n_fail X po l)%Z /\ (n_lsf X po l = true \/ (bfirst (ls_base (n_pol X po l)) = true /\ n_mdx X po l = o_dx opt + 1) \/
      exists xp k y, n_mdx X po l = maxabs n (n_d X po l) /\ eqn 0 xp y /\ (forall p, n_d X po l p = step ^ k * y p) /\
        (if n_pf X po l then n_x X po l = xp /\ (Z.of_nat k + 1 <= n_fail X po l)%Z else n_x X po l = move xp (n_d X po l) /\ (Z.of_nat k <= n_fail X po l)%Z)).
    Lemma sinv_step : forall l, sinv l -> sinv (n_iteration X move n m e po l).
    Proof.
      intros l [F I]. unfold n_iteration. cbn [np_solve n_line_search np_reverts]. unfold ls_solve. cbn [cpf csolve cfresh base_enter bfirst].
      destruct (bfirst (ls_base (n_pol X po l)) || negb (n_pf X po l)) eqn:C.
      - destruct (n_reply X m e Jac solver (n_x X po l) 0 (n_d X po l)) as [ok d] eqn:R. cbn [fst snd]. destruct ok; [|split; [cbn [n_fail]; lia|left; reflexivity]].
        apply reply_eqn in R. destruct (rlt (n_pJ X po l - n_cost X m e (move (n_x X po l) d)) 0); (split; [cbn [n_fail]; lia|]); right; right; exists (n_x X po l), 0%nat, d;
          cbn [n_x n_d n_mdx n_pf n_fail]; (split; [reflexivity|]); (split; [exact R|]); (split; [intros; cbn [pow]; ring|]); split; auto; lia.
      - apply orb_false_iff in C as [C1 C2]. apply negb_false_iff in C2. rewrite C1, C2 in I.
        destruct I as [I|[[I _]|(xp & k & y & I1 & I2 & I3 & I4 & I5)]]; [|discriminate|].
        + destruct (rlt (n_pJ X po l - n_cost X m e (move (n_x X po l) (vscale step (n_d X po l)))) 0); (split; [cbn [n_fail]; lia|]); left; exact I.
        + assert (forall p, vscale step (n_d X po l) p = step ^ Datatypes.S k * y p) as Y by (intros p; unfold vscale; cbn [kmul RRing]; rewrite I3; cbn [pow]; ring).
          destruct (rlt (n_pJ X po l - n_cost X m e (move (n_x X po l) (vscale step (n_d X po l)))) 0); (split; [cbn [n_fail]; lia|]); right; right; exists xp, (Datatypes.S k), y;
            cbn [n_x n_d n_mdx n_pf n_fail]; (split; [reflexivity|]); (split; [exact I2|]); (split; [exact Y|]); split; try lia; try congruence.
    Qed.
    Theorem ls_dx : forall x l, n_optimize X move n m e po opt x = Some l -> n_status X po opt l = Optimizer2_Model.DX ->
      exists xp d, maxabs n d <= o_dx opt /\ (n_x X po l = xp \/ n_x X po l = move xp d) /\
        forall L, entries_below n m Jac xp L -> forall p, (p < n)%nat -> step ^ Z.to_nat (n_fail X po l) * Rabs (gradient m e Jac xp p) <= INR n * L * o_dx opt.
    Proof.
      intros x l R S. apply dx_facts in S as [S1 S2]. unfold n_optimize in R.
      apply (n_loop_ind po sinv) in R; [|intros; apply sinv_step; auto|split; [cbn; lia|right; left; split; reflexivity]].
      destruct R as [F [R|[[_ R]|(xp & k & y & R1 & R2 & R3 & R4)]]]; [congruence|lra|]. exists xp, (n_d X po l). rewrite R1 in S2. split; auto. split; [destruct (n_pf X po l); tauto|].
      intros L B p Hp.
      assert (0 < step ^ k) as Pk by (apply pow_lt; lra).
      assert (maxabs n y <= o_dx opt / step ^ k) as My.
      { assert (forall j, maxabs j (n_d X po l) = step ^ k * maxabs j y) as E.
        { induction j as [|j IH]; cbn [maxabs]; [ring|]. rewrite IH, R3, Rabs_mult, (Rabs_pos_eq (step ^ k)) by lra. rewrite RmaxRmult by lra. reflexivity. }
        rewrite E in S2. apply Rmult_le_reg_r with (step ^ k); auto. unfold Rdiv. rewrite Rmult_assoc, Rinv_l by lra. lra. }
      pose proof (grad_bound 0 xp _ _ L R2 My B p Hp) as G.
      assert (step ^ Z.to_nat (n_fail X po l) <= step ^ k) as Q.
      { replace (Z.to_nat (n_fail X po l)) with (k + (Z.to_nat (n_fail X po l) - k))%nat by (destruct (n_pf X po l); lia). rewrite pow_add.
        assert (step ^ (Z.to_nat (n_fail X po l) - k) <= 1). { rewrite <- (pow1 (Z.to_nat (n_fail X po l) - k)). apply pow_incr. lra. }
        pose proof (pow_lt step (Z.to_nat (n_fail X po l) - k) ltac:(lra)). nra. }
      eapply Rle_trans; [apply Rmult_le_compat_r; [apply Rabs_pos|exact Q]|].
      replace (INR n * L * o_dx opt) with (step ^ k * ((INR n * L + 0 * 0) * (o_dx opt / step ^ k))) by (field; lra). apply Rmult_le_compat_l; lra.
    Qed.
  End LS.

  (** ** Levenberg-Marquardt *)
  Section LM.
    Variable P : lmparams.
    Hypothesis Po : lm_params_ok P.
    Hypothesis Oo : 0 <= o_dx opt /\ 0 <= o_dJ opt.
    Notation po := (n_levenberg_marquardt X n m e Jac solver P).
    Definition minv (l : nst X po) : Prop := n_lsf X po l = true \/
      (n_pJ X po l <= n_J X po l /\ let s := fst (n_pol X po l) in exists lam, lambda s = Some lam /\ 0 < lam /\ 0 < mu s /\
        ((bfirst (lm_base s) = true /\ n_mdx X po l = o_dx opt + 1 /\ n_pf X po l = false) \/
         (bfirst (lm_base s) = false /\ exists xp, snd (n_pol X po l) = Some xp /\ lm_sys s = n_system X n m e Jac xp /\ eqn lam xp (n_d X po l) /\ n_mdx X po l = maxabs n (n_d X po l) /\
           if n_pf X po l then n_x X po l = xp else n_x X po l = move xp (n_d X po l) /\ 0 <= n_dJ X po l <= bJ (lm_base s) - n_J X po l))).

    Lemma rho_pos : forall lam x d g, 0 < lam -> 0 < g -> eqn lam x d -> 0 < maxabs n d -> exists r, xdiv g (vdot n d (vadd (vscale lam d) (n_rhs X m e Jac x))) = Fin r /\ 0 < r.
    Proof.
      intros lam x d g L G E M.
      assert (0 < vdot n d d) as D.
      { destruct (Rle_lt_or_eq_dec 0 (vdot n d d) (dot_sq n d)) as [|Z]; auto. exfalso. symmetry in Z. rewrite maxabs_zero in M; [lra|]. apply dot_zero; auto. }
      assert (vdot n d (vadd (vscale lam d) (n_rhs X m e Jac x)) = (lam + lam * lam) * vdot n d d + vdot m (mvmul n (Jac x) d) (mvmul n (Jac x) d)) as Q.
      { rewrite <- AtA. unfold vdot at 1 2 3. rewrite (@ksum_ext R RRing n (fun i => d i * vadd (vscale lam d) (n_rhs X m e Jac x) i) (fun i => (lam + lam * lam) * (d i * d i) + d i * mvmul n (H x) d i)).
        - rewrite (@ksum_add R RRing). rewrite (@ksum_mul_l R RRing). reflexivity.
        - intros i Hi. specialize (E i Hi). unfold vadd, vscale. cbn [kadd kmul RRing]. rewrite <- E. ring. }
      rewrite Q. pose proof (dot_sq m (mvmul n (Jac x) d)) as S. assert (0 < (lam + lam * lam) * vdot n d d + vdot m (mvmul n (Jac x) d) (mvmul n (Jac x) d)) as T by nra.
      unfold xdiv. destruct (Req_EM_T _ 0) as [Z|Z]; [lra|]. eexists. split; [reflexivity|]. apply Rdiv_lt_0_compat; auto.
    Qed.
    Lemma factor_pos : forall r, exists f, lm_factor P (Fin r) = Some f /\ 0 < f.
    Proof.
      intros r. destruct Po as (_ & G & _). cbn [lm_factor]. eexists. split; [reflexivity|]. assert (0 < 1 / gamma P) by (apply Rdiv_lt_0_compat; lra).
      destruct (rlt _ (1 / gamma P)) eqn:E; auto. apply rlt_false in E. lra.
    Qed.

    (* one call of the policy: it solves at the present state with a positive lambda *)
    Lemma lm_call : forall l, minv l -> n_continue X po opt l = true -> n_lsf X po l = false ->
      exists lam' s', 0 < lam' /\ lambda s' = Some lam' /\ 0 < mu s' /\ bfirst (lm_base s') = false /\ bJ (lm_base s') = n_J X po l /\ lm_sys s' = n_system X n m e Jac (n_x X po l) /\
        exists ok d, n_lm_call X n m e Jac solver P (n_pol X po l) (n_J X po l) (n_pf X po l) (n_x X po l) (n_d X po l) = (ok, d, (s', Some (n_x X po l))) /\ (ok = true -> eqn lam' (n_x X po l) d).
    Proof.
      intros l [I|I] C Lf; [congruence|]. destruct I as (_ & lam & L1 & L2 & L3 & I). set (s := fst (n_pol X po l)) in *.
      unfold n_continue in C. rewrite Lf, orb_false_r in C. apply andb_true_iff in C as [_ C]. apply andb_true_iff in C as [C1 C2]. apply rlt_true in C1, C2.
      unfold n_lm_call. fold s.
      assert (exists lam' m', 0 < lam' /\ 0 < m' /\
        (lm_builds n P s (n_J X po l) (n_pf X po l) (n_d X po l) = true \/ snd (n_pol X po l) = Some (n_x X po l) /\ lm_sys s = n_system X n m e Jac (n_x X po l)) /\
        forall cs, lm_solve n P s (n_d X po l) (mkCall (n_J X po l) (n_pf X po l) (n_system X n m e Jac (n_x X po l)) cs) =
          (fst cs, snd cs, mkLm (base_leave (base_enter (lm_base s) (mkCall (n_J X po l) (n_pf X po l) (n_system X n m e Jac (n_x X po l)) cs))) (Some lam') m'
             (if lm_builds n P s (n_J X po l) (n_pf X po l) (n_d X po l) then n_system X n m e Jac (n_x X po l) else lm_sys s))) as (lam' & m' & A1 & A2 & A3 & A4).
      { unfold lm_solve, lm_builds. cbn [base_enter bfirst cJ cpf cfresh csolve].
        destruct I as [(I1 & I2 & I3)|(I1 & xp & I2 & I3 & I4 & I5 & I6)].
        - rewrite I1. exists lam, (mu s). split; auto. split; auto. split; auto. intros cs. rewrite L1. reflexivity.
        - rewrite I1. cbn [base_enter bfirst cJ cpf]. unfold lm_update. destruct (n_pf X po l).
          + subst xp. rewrite L1. cbn [option_map snd]. exists (lam * (mu s * 2)), (mu s * 2). split; [nra|]. split; [lra|]. split; auto.
          + destruct I6 as [I6 I7]. unfold getLmRho. cbn [lambda lm_base lm_sys get_dJ bpJ bJ]. rewrite L1, I3. cbn [rhs n_system].
            rewrite Rabs_pos_eq in C2 by lra.
            destruct (rho_pos lam xp (n_d X po l) (bJ (lm_base s) - n_J X po l) L2 ltac:(lra) I4 ltac:(lra)) as (r & Er & Rp). unfold get_dJ. cbn [bpJ bJ base_enter cpf cJ lm_base lambda lm_sys rhs n_system]. rewrite Er.
            assert (xle (Fin r) 0 = false) as Xr by (cbn [xle]; apply rle_false; auto). rewrite Xr.
            destruct (rlt (1 / 10 ^ 16) lam).
            * destruct (factor_pos r) as (f & Ef & Fp). rewrite Ef. cbn [option_map snd]. exists (lam * f), (beta P). split; [nra|]. split; [destruct Po as (_ & _ & ? & _); lra|]. split; auto.
            * cbn [snd]. exists (1 / 10 ^ 15), (mu s). split; [apply Rdiv_lt_0_compat; [lra|apply pow_lt; lra]|]. split; auto. }
      rewrite A4. cbn [snd lambda].
      set (at_ := if lm_builds n P s (n_J X po l) (n_pf X po l) (n_d X po l) then Some (n_x X po l) else snd (n_pol X po l)).
      assert (at_ = Some (n_x X po l)) as At by (unfold at_; destruct (lm_builds n P s (n_J X po l) (n_pf X po l) (n_d X po l)); auto; destruct A3 as [A3|[A3 _]]; [discriminate|auto]).
      rewrite At. destruct (n_reply X m e Jac solver (n_x X po l) lam' (n_d X po l)) as [ok d] eqn:R. rewrite A4. cbn [fst snd].
      exists lam', (mkLm (base_leave (base_enter (lm_base s) (mkCall (n_J X po l) (n_pf X po l) (n_system X n m e Jac (n_x X po l)) (ok, d)))) (Some lam') m'
        (if lm_builds n P s (n_J X po l) (n_pf X po l) (n_d X po l) then n_system X n m e Jac (n_x X po l) else lm_sys s)). split; [exact A1|]. split; [reflexivity|]. split; [exact A2|]. split; [reflexivity|]. split; [reflexivity|]. split.
      - cbn [lm_sys]. destruct (lm_builds n P s (n_J X po l) (n_pf X po l) (n_d X po l)); auto. destruct A3 as [A3|[_ A3]]; [discriminate|auto].
      - exists ok, d. split; [rewrite ?A4; cbn [fst snd lambda]; rewrite R; cbn [fst snd]; reflexivity|]. intros ->. eapply reply_eqn; eauto.
    Qed.

    Lemma minv_step : forall l, minv l -> n_continue X po opt l = true -> minv (n_iteration X move n m e po l).
    Proof.
      intros l I C. destruct (n_lsf X po l) eqn:Lf.
      { left. unfold n_iteration. destruct (np_solve X po (n_pol X po l) (n_J X po l) (n_pf X po l) (n_x X po l) (n_d X po l)) as [[ok d] q]. destruct ok; [|reflexivity].
        cbn [np_reverts n_levenberg_marquardt]. destruct (rlt _ 0); exact Lf. }
      destruct (lm_call l I C Lf) as (lam & s' & S1 & S2 & S3 & S4 & S5 & S6 & ok & d & Ec & E).
      unfold n_iteration. cbn [np_solve np_reverts n_levenberg_marquardt]. rewrite Ec. destruct ok; [|left; reflexivity]. specialize (E eq_refl).
      destruct I as [I|(I & _)]; [congruence|]. right.
      destruct (rlt (n_pJ X po l - n_cost X m e (move (n_x X po l) d)) 0) eqn:D.
      - apply rlt_true in D. cbn [n_pJ n_J n_pol fst snd n_d n_mdx n_pf n_x n_dJ]. split; [lra|]. exists lam. split; auto. split; auto. split; auto. right. split; auto.
        exists (n_x X po l). repeat split; auto.
      - apply rlt_false in D. cbn [n_pJ n_J n_pol fst snd n_d n_mdx n_pf n_x n_dJ]. split; [lra|]. exists lam. split; auto. split; auto. split; auto. right. split; auto.
        exists (n_x X po l). split; auto. split; auto. split; auto. split; auto. split; auto. rewrite S5. lra.
    Qed.
    Theorem lm_dx : forall x l, n_optimize X move n m e po opt x = Some l -> n_status X po opt l = Optimizer2_Model.DX ->
      exists lam xp d, lambda (fst (n_pol X po l)) = Some lam /\ maxabs n d <= o_dx opt /\ (n_x X po l = xp \/ n_x X po l = move xp d) /\
        forall L, entries_below n m Jac xp L -> forall p, (p < n)%nat -> Rabs (gradient m e Jac xp p) <= (INR n * L + lam * lam) * o_dx opt.
    Proof.
      intros x l R S. apply dx_facts in S as [S1 S2]. unfold n_optimize in R.
      apply (n_loop_ind po minv) in R; [|intros; apply minv_step; auto|].
      - destruct R as [R|(_ & lam & L1 & _ & _ & [(_ & R & _)|(_ & xp & _ & _ & R1 & R2 & R3)])]; [congruence|lra|]. exists lam, xp, (n_d X po l). rewrite R2 in S2.
        split; auto. split; auto. split; [destruct (n_pf X po l); tauto|]. intros L B p Hp. exact (grad_bound lam xp _ _ L R1 S2 B p Hp).
      - right. cbn. split; [lra|]. exists (lambdaInit P). destruct Po as (P1 & _ & _ & _ & P2). split; auto. split; auto. split; [lra|]. left. auto.
    Qed.
  End LM.
End Run.
