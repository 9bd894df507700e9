(** * Linear least-squares problems: runs of Optimizer2 *)
From Coq Require Import Reals Lra Lia Arith List Bool ZArith.
From Verif Require Import Lib_Ring Lib_Real Policy_Model Policy_Spec Lin_Model Lin_Spec Lin_Proofs.
From Verif Require Optimizer2_Model.
Open Scope R_scope.

Lemma rlt_true : forall a b, rlt a b = true <-> a < b. Proof. intros a b. unfold rlt. destruct (Rlt_dec a b); split; auto; discriminate. Qed.
Lemma rlt_false : forall a b, rlt a b = false <-> b <= a. Proof. intros a b. unfold rlt. destruct (Rlt_dec a b); split; auto; try discriminate; lra. Qed.
Lemma rle_true : forall a b, rle a b = true <-> a <= b. Proof. intros a b. unfold rle. destruct (Rle_dec a b); split; auto; discriminate. Qed.
Lemma rle_false : forall a b, rle a b = false <-> b < a. Proof. intros a b. unfold rle. destruct (Rle_dec a b); split; auto; try discriminate; lra. Qed.

Lemma div_ge1 : forall a d, 0 < d -> d <= a -> 1 <= a / d.
Proof. intros a d D L. apply Rmult_le_reg_r with d; auto. unfold Rdiv. rewrite Rmult_assoc, Rinv_l by lra. lra. Qed.

Section Run.
  Variables (n m : nat) (A : mat R) (b : vec R) (mu : R) (solver : R -> vec R -> option (vec R)) (opt : ropt).
  Hypothesis Mg : margin n m A mu.
  Hypothesis So : solver_ok n m A solver.
  Hypothesis Oo : opt_ok opt.
  Notation Av v := (mvmul n A v).
  Notation H v := (mvmul n (mmul m (mtr A) A) v).
  Notation cost := (cost n m A b).
  Notation g x := (mJte n m A b x).

  Lemma solution : exists xs, stat n m A b xs.
  Proof.
    destruct (So 0 (g (fun _ => 0))) as (y & _ & Y). exists (vadd (fun _ => 0) y). apply newton_stat. intros p Hp. rewrite <- Y by auto. ring.
  Qed.
  Lemma reply_ok : forall lam r dx, exists y, reply solver lam r dx = (true, y) /\ forall p, (p < n)%nat -> H y p + lam * lam * y p = r p.
  Proof. intros lam r dx. destruct (So lam r) as (y & E & Y). exists y. unfold reply. rewrite E. auto. Qed.

  (* the limits that end the loop *)
  Lemma stopped : forall po (l : lst po), l_lsf po l = false -> l_fail po l = 0%Z -> lin_continue po opt l = false -> (l_it po l < o_max opt)%Z -> l_mdx po l <= o_dx opt \/ Rabs (l_dJ po l) <= o_dJ opt.
  Proof.
    intros po l L F C I. unfold lin_continue in C. rewrite L, F, (proj2 (Z.ltb_lt _ _) I), (proj2 (Z.ltb_lt 0 (o_max opt))), orb_false_r in C by (destruct Oo as (_ & _ & ?); lia). cbn [andb] in C.
    apply andb_false_iff in C. destruct C as [C|C]; apply rlt_false in C; auto.
  Qed.
  Lemma status_good : forall po (l : lst po), l_lsf po l = false -> l_fail po l = 0%Z -> lin_continue po opt l = false -> (l_it po l < o_max opt)%Z ->
    (lin_status po opt l = Optimizer2_Model.DX /\ l_mdx po l <= o_dx opt) \/ (lin_status po opt l = Optimizer2_Model.DOBJECTIVE /\ Rabs (l_dJ po l) <= o_dJ opt).
  Proof.
    intros po l L F C I. pose proof (stopped po l L F C I) as G. unfold lin_status. rewrite L, F, (proj2 (Z.leb_gt _ _) I), (proj2 (Z.leb_gt (o_max opt) 0)) by (destruct Oo as (_ & _ & ?); lia). cbn [orb].
    destruct (rle (l_mdx po l) (o_dx opt)) eqn:E; [left; split; auto; apply rle_true; auto|]. apply rle_false in E. destruct G as [G|G]; [lra|]. right. rewrite (proj2 (rle_true _ _) G). auto.
  Qed.

  (** ** policies that take the undamped step *)
  Definition newton (po : policy) : Prop :=
    forall s J x dx, exists y q, p_solve po s J false x dx = (true, y, q) /\ forall p, (p < n)%nat -> H y p = g x p.
  Lemma gn_newton : newton (gauss_newton n m A b solver).
  Proof.
    intros s J x dx. destruct (reply_ok 0 (g x) dx) as (y & E & Y). cbn [p_solve gauss_newton]. unfold gn_solve. cbn [csolve cfresh]. rewrite E. exists y. eexists. split; [reflexivity|]. intros p Hp. rewrite <- Y by auto. ring.
  Qed.
  Lemma ls_newton : forall step reset sc0, newton (line_search n m A b solver step reset sc0).
  Proof.
    intros step reset sc0 s J x dx. destruct (reply_ok 0 (g x) dx) as (y & E & Y). cbn [p_solve line_search]. unfold ls_solve. cbn [csolve cpf cfresh negb]. rewrite orb_true_r, E. exists y. eexists. split; [reflexivity|]. intros p Hp. rewrite <- Y by auto. ring.
  Qed.
  Lemma newton_iteration : forall po, newton po -> forall l, l_pf po l = false -> l_lsf po l = false -> l_pJ po l = cost (l_x po l) ->
    exists y q, lin_iteration n m A b po l = mkLst po (vadd (l_x po l) y) (cost (vadd (l_x po l) y)) (cost (vadd (l_x po l) y)) (maxabs n y) (cost (l_x po l) - cost (vadd (l_x po l) y)) false false (l_it po l + 1) (l_fail po l) y q /\
      (forall p, (p < n)%nat -> H y p = g (l_x po l) p).
  Proof.
    intros po N l F L E. destruct (N (l_pol po l) (l_J po l) (l_x po l) (l_d po l)) as (y & q & Ey & Y). unfold lin_iteration. rewrite F, Ey, L, E.
    assert (M : cost (vadd (l_x po l) y) <= cost (l_x po l)) by (apply (stat_minimal n m A b _ (newton_stat n m A b _ _ Y))).
    exists y, q. split; auto. destruct (p_reverts po); auto. destruct (rlt _ 0) eqn:R1; auto. apply rlt_true in R1. lra.
  Qed.
  Lemma start_continues : forall po x, lin_continue po opt (lin_start n m A b po opt x) = true.
  Proof.
    intros po x. destruct Oo as (O1 & O2 & O3). unfold lin_continue, lin_start. cbn [l_it l_fail l_mdx l_dJ l_lsf]. rewrite (proj2 (Z.ltb_lt 0 (o_max opt))) by lia. cbn [andb]. rewrite Rabs_right by lra. rewrite !(proj2 (rlt_true _ _)) by lra. reflexivity.
  Qed.
  Lemma newton_run : forall po, newton po -> forall x, exists l, lin_optimize n m A b po opt x = Some l /\
    minimal n m A b (l_x po l) /\ l_pJ po l = cost (l_x po l) /\ (1 <= l_it po l <= 2)%Z /\ l_fail po l = 0%Z /\
    ((l_it po l < o_max opt)%Z -> lin_status po opt l = Optimizer2_Model.DX \/ lin_status po opt l = Optimizer2_Model.DOBJECTIVE).
  Proof.
    intros po N x. unfold lin_optimize. set (l0 := lin_start n m A b po opt x). assert (O3 : (1 <= o_max opt)%Z) by apply Oo.
    destruct (Z.to_nat (o_max opt) + Z.to_nat (o_max opt))%nat as [|[|f]] eqn:Ef; [lia|lia|]. cbn [lin_loop]. unfold l0 at 1. rewrite start_continues.
    destruct (newton_iteration po N l0 eq_refl eq_refl eq_refl) as (y & q & E & Y). set (l1 := lin_iteration n m A b po l0) in *.
    assert (S1 : stat n m A b (l_x po l1)) by (rewrite E; cbn [l_x]; apply newton_stat; exact Y).
    destruct (lin_continue po opt l1) eqn:C1.
    - destruct (newton_iteration po N l1) as (z & q2 & E2 & Z); try (rewrite E; reflexivity).
      assert (Z0 : forall p, (p < n)%nat -> z p = 0). { apply (H_inj n m A mu Mg). intros p Hp. rewrite Z by auto. apply S1. auto. }
      set (l2 := lin_iteration n m A b po l1) in *.
      assert (C2 : lin_continue po opt l2 = false).
      { unfold lin_continue. rewrite E2. cbn [l_mdx l_lsf]. rewrite (maxabs_zero n z Z0), (proj2 (rlt_false (o_dx opt) 0)) by apply Oo. cbn [andb orb]. apply andb_false_r. }
      assert (E3 : lin_loop n m A b po opt f l2 = Some l2) by (destruct f; cbn [lin_loop]; rewrite C2; auto). rewrite E3. exists l2. split; auto.
      assert (I2 : l_it po l2 = 2%Z /\ l_fail po l2 = 0%Z /\ l_lsf po l2 = false /\ l_pJ po l2 = cost (l_x po l2)) by (rewrite E2; cbn [l_it l_fail l_lsf l_pJ l_x]; rewrite E; cbn; auto).
      destruct I2 as (I2 & F2 & L2 & P2). split; [|split; [exact P2|split; [lia|split; [exact F2|]]]].
      + intros w. rewrite (cost_ext n m A b (l_x po l2) (l_x po l1)) by (intros i Hi; rewrite E2; cbn [l_x]; unfold vadd; rewrite Z0 by auto; cbn; ring). apply (stat_minimal n m A b _ S1).
      + intros I. destruct (status_good po l2 L2 F2 C2 I) as [(G & _)|(G & _)]; auto.
    - exists l1. split; auto. assert (I1 : l_it po l1 = 1%Z /\ l_fail po l1 = 0%Z /\ l_lsf po l1 = false /\ l_pJ po l1 = cost (l_x po l1)) by (rewrite E; cbn; auto). destruct I1 as (I1 & F1 & L1 & P1).
      split; [apply (stat_minimal n m A b _ S1)|]. split; [exact P1|]. split; [lia|]. split; [exact F1|]. intros I. destruct (status_good po l1 L1 F1 C1 I) as [(G & _)|(G & _)]; auto.
  Qed.

  (** ** Levenberg-Marquardt *)
  Variable P : lmparams.
  Hypothesis Po : lm_params_ok P.
  Notation po := (levenberg_marquardt n m A b solver P).
  Let Lm := damping P.
  Lemma Lm_facts : lambdaInit P <= Lm /\ beta P <= Lm /\ 1 < Lm.
  Proof. destruct Po as (_ & _ & B & _). unfold Lm, damping. pose proof (Rmax_l (lambdaInit P) (beta P)). pose proof (Rmax_r (lambdaInit P) (beta P)). lra. Qed.
  Lemma lm_solve_eq : forall s dx J pf fr cs, lm_solve n P s dx (mkCall J pf fr cs) = (fst cs, snd cs, snd (lm_solve n P s dx (mkCall J pf fr (true, dx)))).
  Proof. intros s dx J pf fr cs. unfold lm_solve. cbn [cJ cpf cfresh csolve base_enter bfirst]. destruct (if bfirst (lm_base s) then _ else _) as [[l' m'] bu]. reflexivity. Qed.

  (* the gain ratio of a step of a linear problem, and the damping after it *)
  Lemma ratio_facts : forall lam h s, 0 < lam -> 0 <= h -> 0 < s -> let r := (h + 2 * (lam * lam) * s) / (lam * s + (h + lam * lam * s)) in
    0 < r /\ (1 <= lam -> 1 <= r).
  Proof.
    intros lam h s L H0 S0 r. assert (P1 : 0 < lam * s) by (apply Rmult_lt_0_compat; auto). assert (P2 : 0 < lam * lam * s) by (repeat apply Rmult_lt_0_compat; auto). assert (Dp : 0 < lam * s + (h + lam * lam * s)) by lra. split.
    - apply Rdiv_lt_0_compat; lra.
    - intros L1. unfold r. apply div_ge1; auto. assert (lam * s <= lam * lam * s); [|lra]. apply Rmult_le_compat_r; [lra|]. rewrite <- (Rmult_1_l lam) at 1. apply Rmult_le_compat_r; lra.
  Qed.
  Lemma pow_low : forall u k, -1 <= u -> -1 <= u ^ k.
  Proof.
    intros u k Hu. destruct (Rle_dec 0 u) as [H0|H0]; [pose proof (pow_le u k H0); lra|].
    assert (B : Rabs (u ^ k) <= 1). { rewrite <- RPow_abs. rewrite <- (pow1 k). apply pow_incr. split; [apply Rabs_pos|]. rewrite Rabs_left by lra. lra. }
    pose proof (Rabs_def2 (u ^ k) 2 ltac:(lra)). apply Rnot_lt_le. intros F. rewrite Rabs_left in B by lra. lra.
  Qed.
  Lemma factor_facts : forall lam r, 0 < lam -> lam <= Lm -> 0 < r -> (1 <= lam -> 1 <= r) -> exists f, lm_factor P (Fin r) = Some f /\ 0 < lam * f <= Lm.
  Proof.
    intros lam r L1 L2 R1 R2. destruct Po as (_ & G & B & Pp & _). destruct Lm_facts as (_ & LB & LM1). unfold lm_factor. eexists. split; [reflexivity|].
    assert (U1 : 0 < 1 / gamma P <= 1).
    { split; [apply Rdiv_lt_0_compat; lra|]. apply Rmult_le_reg_r with (gamma P); [lra|]. unfold Rdiv. rewrite Rmult_assoc, Rinv_l by lra. lra. }
    set (u2 := 1 - (beta P - 1) * (2 * r - 1) ^ p P).
    assert (U2 : u2 <= beta P).
    { unfold u2. pose proof (pow_low (2 * r - 1) (p P) ltac:(lra)). assert ((beta P - 1) * -1 <= (beta P - 1) * (2 * r - 1) ^ p P) by (apply Rmult_le_compat_l; lra). lra. }
    assert (U3 : 1 <= lam -> u2 <= 1).
    { intros L3. unfold u2. pose proof (pow_R1_Rle (2 * r - 1) (p P) ltac:(specialize (R2 L3); lra)). assert ((beta P - 1) * 1 <= (beta P - 1) * (2 * r - 1) ^ p P) by (apply Rmult_le_compat_l; lra). lra. }
    destruct (rlt u2 (1 / gamma P)) eqn:E; [apply rlt_true in E|apply rlt_false in E].
    - split; [apply Rmult_lt_0_compat; lra|]. apply Rle_trans with (lam * 1); [apply Rmult_le_compat_l; lra|lra].
    - split; [apply Rmult_lt_0_compat; lra|]. destruct (Rle_dec 1 lam) as [L3|L3].
      + specialize (U3 L3). apply Rle_trans with (lam * 1); [apply Rmult_le_compat_l; lra|lra].
      + apply Rle_trans with (1 * beta P); [|lra]. apply Rmult_le_compat; lra.
  Qed.

  Variables (xs x0 : vec R).
  Hypothesis Ss : stat n m A b xs.
  Let q := rate Lm mu.
  Lemma q_facts : 0 < q < 1.
  Proof.
    destruct Mg as (M0 & _). destruct Lm_facts as (_ & _ & L1). assert (0 < Lm * Lm) by (apply Rmult_lt_0_compat; lra). unfold q, rate. set (c := Lm * Lm / (mu + Lm * Lm)). assert (C : 0 < c < 1).
    { split; [apply Rdiv_lt_0_compat; lra|]. unfold c. apply Rmult_lt_reg_r with (mu + Lm * Lm); [lra|]. unfold Rdiv. rewrite Rmult_assoc, Rinv_l by lra. lra. }
    cbn. rewrite Rmult_1_r. split; [apply Rmult_lt_0_compat; lra|]. apply Rlt_trans with (c * 1); [apply Rmult_lt_compat_l; lra|lra].
  Qed.
  Lemma step_rate : forall lam e0 e1, 0 < lam -> lam <= Lm -> 0 <= e0 -> (mu + lam * lam) ^ 2 * e1 <= (lam * lam) ^ 2 * e0 -> e1 <= q * e0.
  Proof.
    intros lam e0 e1 L1 L2 E0 C. destruct Mg as (M0 & _). set (c := lam * lam / (mu + lam * lam)). set (cL := Lm * Lm / (mu + Lm * Lm)).
    assert (LL : 0 < lam * lam) by (apply Rmult_lt_0_compat; auto). assert (LLm : lam * lam <= Lm * Lm) by (apply Rmult_le_compat; lra).
    assert (C1 : e1 <= c ^ 2 * e0).
    { apply Rmult_le_reg_l with ((mu + lam * lam) ^ 2); [apply pow_lt; lra|]. eapply Rle_trans; [apply C|]. apply Req_le. unfold c. field. lra. }
    assert (C2 : 0 <= c <= cL).
    { split; [apply Rlt_le, Rdiv_lt_0_compat; lra|]. unfold c, cL. apply Rmult_le_reg_r with ((mu + lam * lam) * (mu + Lm * Lm)); [apply Rmult_lt_0_compat; lra|].
      replace (lam * lam / (mu + lam * lam) * ((mu + lam * lam) * (mu + Lm * Lm))) with (lam * lam * (mu + Lm * Lm)) by (field; lra). replace (Lm * Lm / (mu + Lm * Lm) * ((mu + lam * lam) * (mu + Lm * Lm))) with (Lm * Lm * (mu + lam * lam)) by (field; lra).
      assert (mu * (lam * lam) <= mu * (Lm * Lm)) by (apply Rmult_le_compat_l; lra). lra. }
    eapply Rle_trans; [apply C1|]. apply Rmult_le_compat_r; auto. unfold q, rate. fold cL. apply pow_incr. lra.
  Qed.

  Definition linv (k : nat) (l : lst po) : Prop :=
    l_it po l = Z.of_nat k /\ l_fail po l = 0%Z /\ l_lsf po l = false /\ l_pf po l = false /\ l_J po l = cost (l_x po l) /\ l_pJ po l = cost (l_x po l) /\
    cost (l_x po l) - cost xs <= q ^ k * (cost x0 - cost xs) /\
    exists lam, lambda (l_pol po l) = Some lam /\ 0 < lam <= Lm /\
      match k with
      | O => bfirst (lm_base (l_pol po l)) = true /\ l_mdx po l = o_dx opt + 1 /\ l_dJ po l = o_dJ opt + 1
      | S _ => bfirst (lm_base (l_pol po l)) = false /\ exists xp, l_x po l = vadd xp (l_d po l) /\ (forall p, (p < n)%nat -> H (l_d po l) p + lam * lam * l_d po l p = g xp p) /\
          bJ (lm_base (l_pol po l)) = cost xp /\ rhs (lm_sys (l_pol po l)) = g xp /\ l_dJ po l = cost xp - cost (l_x po l) /\ l_mdx po l = maxabs n (l_d po l)
      end.
  Lemma linv_start : linv 0 (lin_start n m A b po opt x0).
  Proof.
    repeat (split; [reflexivity|]). split; [cbn [pow]; unfold lin_start; cbn [l_x]; lra|]. exists (lambdaInit P). split; [reflexivity|]. split; [split; [apply Po|apply Lm_facts]|]. auto.
  Qed.
  (* the next call sets a damping within the limit and builds the system at the current state *)
  Lemma next_lambda : forall k l, linv k l -> lin_continue po opt l = true ->
    exists lam, lambda (lm_after n m A b P (l_pol po l) (l_J po l) false (l_x po l) (l_d po l)) = Some lam /\ 0 < lam <= Lm /\
      rhs (lm_sys (lm_after n m A b P (l_pol po l) (l_J po l) false (l_x po l) (l_d po l))) = g (l_x po l) /\
      bfirst (lm_base (lm_after n m A b P (l_pol po l) (l_J po l) false (l_x po l) (l_d po l))) = false /\
      bJ (lm_base (lm_after n m A b P (l_pol po l) (l_J po l) false (l_x po l) (l_d po l))) = l_J po l.
  Proof.
    intros k l (I1 & I2 & I3 & I4 & I5 & I6 & I7 & lam & El & Bl & X) C. unfold lm_after, lm_solve. cbn [cJ cpf cfresh csolve base_enter bfirst].
    destruct k as [|k].
    - destruct X as (F & _). rewrite F. cbn [snd lambda lm_sys lm_base base_leave bfirst bJ]. exists lam. rewrite El. auto.
    - destruct X as (F & xp & Ex & Y & EJ & Er & Ed & Em). rewrite F.
      assert (Dn : 0 < vdot n (l_d po l) (l_d po l)).
      { pose proof (dot_sq n (l_d po l)) as Q. destruct (Req_dec (vdot n (l_d po l) (l_d po l)) 0) as [Z|Z]; [|lra]. exfalso. pose proof (maxabs_zero n (l_d po l) (dot_zero n _ Z)) as M. rewrite M in Em.
        unfold lin_continue in C. rewrite I3, Em, orb_false_r in C. apply andb_prop in C. destruct C as (_ & C). apply andb_prop in C. destruct C as (C & _). apply rlt_true in C. destruct Oo as (O1 & _). lra. }
      set (s := vdot n (l_d po l) (l_d po l)) in *. set (h := vdot m (Av (l_d po l)) (Av (l_d po l))). assert (Hh : 0 <= h) by apply dot_sq.
      destruct (ratio_facts lam h s ltac:(lra) Hh Dn) as (R1 & R2). set (r := (h + 2 * (lam * lam) * s) / (lam * s + (h + lam * lam * s))) in *.
      set (s1 := mkLm (mkBase (l_J po l) (bJ (lm_base (l_pol po l))) false) (lambda (l_pol po l)) (Policy_Model.mu (l_pol po l)) (lm_sys (l_pol po l))).
      assert (Er2 : getLmRho n s1 (l_d po l) = Fin r).
      { unfold getLmRho, s1, get_dJ. cbn [lambda lm_base bpJ bJ lm_sys]. rewrite El, EJ, I5, Er, vdot_add_r, vdot_scale_r, (y_g n m A b xp (l_d po l) lam Y). fold s h. cbn [kadd kmul RRing].
        replace (cost xp - cost (l_x po l)) with (h + 2 * (lam * lam) * s) by (rewrite Ex; symmetry; apply (decrease n m A b xp (l_d po l) lam Y)).
        unfold xdiv. assert (Dp : 0 < lam * s + (h + lam * lam * s)). { assert (0 < lam * s) by (apply Rmult_lt_0_compat; lra). assert (0 < lam * lam * s) by (repeat apply Rmult_lt_0_compat; lra). lra. }
        destruct (Req_EM_T _ 0) as [Z|Z]; [cbn in Z; lra|]. reflexivity. }
      match goal with |- context [getLmRho n ?t _] => replace t with s1 by (unfold s1, base_enter; cbn [cJ cpf]; rewrite F; reflexivity) end. rewrite Er2. unfold lm_update. unfold xle. rewrite (proj2 (rle_false r 0) R1), El.
      destruct (factor_facts lam r ltac:(lra) ltac:(lra) R1 R2) as (f & Ef & Bf). rewrite Ef. cbn [option_map].
      destruct (rlt (1 / 10 ^ 16) lam); cbn [snd lambda lm_sys lm_base base_leave bfirst bJ rhs system_at]; eexists; (split; [reflexivity|]); (split; [|auto]); auto.
      destruct Lm_facts as (_ & _ & L1). split; [apply Rdiv_lt_0_compat; [lra|apply pow_lt; lra]|]. apply Rle_trans with 1; [|lra].
      apply Rmult_le_reg_r with (10 ^ 15); [apply pow_lt; lra|]. unfold Rdiv. rewrite Rmult_assoc, Rinv_l by (apply pow_nonzero; lra). rewrite !Rmult_1_l. apply pow_R1_Rle. lra.
  Qed.
  Lemma linv_step : forall k l, linv k l -> lin_continue po opt l = true -> linv (Datatypes.S k) (lin_iteration n m A b po l).
  Proof.
    intros k l I C. destruct (next_lambda k l I C) as (lam & El & Bl & Er & Ef & EJ). destruct I as (I1 & I2 & I3 & I4 & I5 & I6 & I7 & _).
    destruct (reply_ok lam (g (l_x po l)) (l_d po l)) as (y & Ey & Y).
    unfold lin_iteration. cbn [p_solve levenberg_marquardt]. rewrite I4, lm_solve_eq.
    change (snd (lm_solve n P (l_pol po l) (l_d po l) (mkCall (l_J po l) false (system_at n m A b (l_x po l)) (true, l_d po l)))) with (lm_after n m A b P (l_pol po l) (l_J po l) false (l_x po l) (l_d po l)).
    set (s' := lm_after n m A b P (l_pol po l) (l_J po l) false (l_x po l) (l_d po l)) in *.
    unfold lm_reply. rewrite El, Er, Ey. cbn [fst snd p_reverts levenberg_marquardt].
    pose proof (decrease n m A b (l_x po l) y lam Y) as D. cbn zeta in D. pose proof (dot_sq m (Av y)) as D1. pose proof (dot_sq n y) as D2. assert (D3 : 0 <= 2 * (lam * lam) * vdot n y y) by (apply Rmult_le_pos; auto; pose proof (Rmult_lt_0_compat lam lam ltac:(lra) ltac:(lra)); lra).
    assert (NR : rlt (l_pJ po l - cost (vadd (l_x po l) y)) 0 = false) by (apply rlt_false; rewrite I6; lra). rewrite NR.
    unfold linv. cbn [l_it l_fail l_lsf l_pf l_J l_pJ l_x l_pol l_d l_dJ l_mdx]. split; [lia|]. split; auto. split; auto. split; auto. split; auto. split; auto. split.
    - pose proof (contraction n m A b mu Mg xs (l_x po l) y lam Ss Y) as K. cbn zeta in K. rewrite <- (excess n m A b xs _ Ss), <- (excess n m A b xs _ Ss) in K.
      pose proof (stat_minimal n m A b xs Ss (l_x po l)) as M0. pose proof (step_rate lam (cost (l_x po l) - cost xs) (cost (vadd (l_x po l) y) - cost xs) ltac:(lra) ltac:(lra) ltac:(lra) K) as K2. destruct q_facts as (Q1 & Q2).
      cbn [pow]. rewrite Rmult_assoc. eapply Rle_trans; [apply K2|]. apply Rmult_le_compat_l; lra.
    - exists lam. split; auto. split; auto. split; auto. exists (l_x po l). split; auto. split; auto. split; [rewrite EJ; auto|]. split; auto. split; [rewrite I6; auto|auto].
  Qed.
  Lemma linv_loop : forall fuel k l, linv k l -> (Z.to_nat (o_max opt) <= fuel + k)%nat -> exists k' l', lin_loop n m A b po opt fuel l = Some l' /\ linv k' l' /\ lin_continue po opt l' = false /\ (k <= k')%nat.
  Proof.
    induction fuel as [|f IH]; intros k l I F; cbn [lin_loop].
    - assert (C : lin_continue po opt l = false). { unfold lin_continue. destruct I as (I1 & _). rewrite I1, (proj2 (Z.ltb_ge (Z.of_nat k) (o_max opt))) by lia. reflexivity. }
      rewrite C. exists k, l. auto.
    - destruct (lin_continue po opt l) eqn:C; [|exists k, l; auto]. destruct (IH (Datatypes.S k) _ (linv_step k l I C) ltac:(lia)) as (k' & l' & E & I' & C' & L). exists k', l'. split; auto. split; auto. split; auto. lia.
  Qed.
  Lemma linv_max : forall fuel k l k' l', linv k l -> (Z.of_nat k <= o_max opt)%Z -> lin_loop n m A b po opt fuel l = Some l' -> linv k' l' -> (Z.of_nat k' <= o_max opt)%Z.
  Proof.
    induction fuel as [|f IH]; intros k l k' l' I L E I'; cbn [lin_loop] in E; destruct (lin_continue po opt l) eqn:C; try discriminate.
    - injection E as <-. destruct I as (I1 & _), I' as (I1' & _). lia.
    - apply (IH (Datatypes.S k) _ k' l' (linv_step k l I C)); auto. unfold lin_continue in C. apply andb_prop in C. destruct C as (C & _). apply andb_prop in C. destruct C as (C & _). apply Z.ltb_lt in C. destruct I as (I1 & _). lia.
    - injection E as <-. destruct I as (I1 & _), I' as (I1' & _). lia.
  Qed.
  Lemma lm_run : exists l, lin_optimize n m A b po opt x0 = Some l /\ l_pJ po l = cost (l_x po l) /\ l_fail po l = 0%Z /\ (1 <= l_it po l <= o_max opt)%Z /\
    cost (l_x po l) - cost xs <= q ^ Z.to_nat (l_it po l) * (cost x0 - cost xs) /\
    ((l_it po l < o_max opt)%Z ->
      (lin_status po opt l = Optimizer2_Model.DX /\ cost (l_x po l) - cost xs <= Lm ^ 4 * INR n * (o_dx opt) ^ 2 / mu) \/
      (lin_status po opt l = Optimizer2_Model.DOBJECTIVE /\ cost (l_x po l) - cost xs <= q / (1 - q) * o_dJ opt)).
  Proof.
    destruct (linv_loop (Z.to_nat (o_max opt) + Z.to_nat (o_max opt)) 0 _ linv_start ltac:(lia)) as (k & l & E & I & C & _). pose proof (linv_max _ _ _ _ _ linv_start ltac:(destruct Oo; lia) E I) as Mx.
    exists l. split; [exact E|]. pose proof I as (I1 & I2 & I3 & I4 & I5 & I6 & I7 & lam & El & Bl & X). split; auto. split; auto.
    destruct k as [|k].
    { exfalso. destruct X as (_ & X1 & X2). assert (C2 : lin_continue po opt l = true); [|congruence]. destruct Oo as (O1 & O2 & O3). unfold lin_continue. rewrite I1, I2, X1, X2. change (Z.of_nat 0) with 0%Z. rewrite !(proj2 (Z.ltb_lt 0 (o_max opt))) by lia. rewrite Rabs_right by lra. rewrite !(proj2 (rlt_true _ _)) by lra. reflexivity. }
    split; [lia|]. split; [rewrite I1, Nat2Z.id; exact I7|]. intros Lt. destruct X as (_ & xp & Ex & Y & _ & _ & Ed & Em).
    destruct Mg as (M0 & _). pose proof (short_step n m A b mu Mg xs xp (l_d po l) lam Ss Y) as Sh. pose proof (contraction n m A b mu Mg xs xp (l_d po l) lam Ss Y) as K. cbn zeta in Sh, K.
    rewrite <- (excess n m A b xs _ Ss) in Sh. rewrite <- !(excess n m A b xs _ Ss) in K. rewrite <- Ex in Sh, K.
    pose proof (stat_minimal n m A b xs Ss xp) as Mp. pose proof (step_rate lam (cost xp - cost xs) (cost (l_x po l) - cost xs) ltac:(lra) ltac:(lra) ltac:(lra) K) as K2. destruct q_facts as (Q1 & Q2). destruct Oo as (O1 & O2 & O3).
    destruct (status_good po l I3 I2 C Lt) as [(G1 & G2)|(G1 & G2)].
    - left. split; auto. apply Rmult_le_reg_l with mu; auto. eapply Rle_trans; [apply Sh|]. replace (mu * (Lm ^ 4 * INR n * (o_dx opt) ^ 2 / mu)) with (Lm ^ 4 * (INR n * ((o_dx opt) * (o_dx opt)))) by (field; lra).
      replace ((lam * lam) ^ 2) with (lam ^ 4) by ring. apply Rmult_le_compat; [apply pow_le; lra|apply dot_sq|apply pow_incr; lra|]. eapply Rle_trans; [apply maxabs_dot|]. apply Rmult_le_compat_l; [apply pos_INR|]. rewrite Em in G2. pose proof (maxabs_nonneg n (l_d po l)). apply Rmult_le_compat; auto.
    - right. split; auto. apply Rmult_le_reg_l with (1 - q); [lra|]. replace ((1 - q) * (q / (1 - q) * o_dJ opt)) with (q * o_dJ opt) by (field; lra).
      pose proof (Rle_abs (l_dJ po l)) as Ab. rewrite Ed in Ab, G2. set (e1 := cost (l_x po l) - cost xs) in *. set (e0 := cost xp - cost xs) in *. assert (De : e0 - e1 <= o_dJ opt) by (unfold e0, e1; lra).
      assert (q * (e0 - e1) <= q * o_dJ opt) by (apply Rmult_le_compat_l; lra). lra.
  Qed.
End Run.
