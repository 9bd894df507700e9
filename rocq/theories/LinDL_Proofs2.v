(** * Dog-leg on linear least-squares problems: runs of Optimizer2 *)
From Coq Require Import Reals Lra Lia Arith List Bool ZArith.
From Verif Require Import Lib_Ring Lib_Real Policy_Model Policy_Proofs Policy_Proofs2 DogLeg1_Proofs Lin_Model Lin_Spec Lin_Proofs Lin_Proofs2 LinDL_Model LinDL_Spec LinDL_Proofs.
From Verif Require Optimizer2_Model.
Open Scope R_scope.

Lemma reach_exists : forall n m A, exists Lam, reach n m A Lam.
Proof.
  intros n m A. exists (@ksum R RRing m (fun i => vdot n (A i) (A i))). intros v. unfold vdot at 1. assert (G : forall k, @ksum R RRing k (fun i => kmul (mvmul n A v i) (mvmul n A v i)) <= @ksum R RRing k (fun i => vdot n (A i) (A i)) * vdot n v v).
  { induction k as [|k IH]; cbn [ksum]; [cbn; lra|]. pose proof (cauchy_schwarz n (A k) v) as C. change (mvmul n A v k) with (vdot n (A k) v). cbn [kadd kmul RRing] in *. lra. }
  apply G.
Qed.

Section Run.
  Variables (n m : nat) (A : mat R) (b : vec R) (mu Lam : R) (solver : R -> vec R -> option (vec R)) (opt : ropt) (s0 : dl).
  Hypothesis Mg : margin n m A mu.
  Hypothesis Rc : reach n m A Lam.
  Hypothesis So : solver_ok n m A solver.
  Hypothesis Oo : opt_ok opt.
  Notation Av v := (mvmul n A v).
  Notation H v := (mvmul n (mmul m (mtr A) A) v).
  Notation cost := (cost n m A b).
  Notation g x := (mJte n m A b x).
  Notation nm v := (norm n v).
  Notation po := (dog_leg n m A b solver s0).
  Variable xs : vec R.
  Hypothesis St : stat n m A b xs.

  Definition radius (s : dl) (J : R) : R := if bfirst (d_base s) then d_delta s else dl_radius n s (xdiv (bJ (d_base s) - J) (d_L0 s)).
  (* the state of the policy before a call with the design variables at x *)
  Definition ready (s : dl) (x : vec R) : Prop :=
    (bfirst (d_base s) = true /\ d_delta s = 0) \/ (bfirst (d_base s) = false /\ 0 < radius s (cost x) /\ nm (g x) <= 4 * Lam * radius s (cost x)).
  (* what one call has done *)
  Definition stepped (x d : vec R) (s : dl) : Prop :=
    bfirst (d_base s) = false /\ bJ (d_base s) = cost x /\ d_dx s = d /\ 0 < d_delta s /\ 0 <= d_L0 s /\ 0 < cost x - cost (vadd x d) /\
    mu / (4 * Lam) * (cost x - cost xs) <= cost x - cost (vadd x d) /\ vdot n (g x) (g x) <= 16 * (Lam * Lam) * vdot n d d /\
    ((d_type s = TSD /\ nm d = d_delta s /\ cost x - cost (vadd x d) = 2 * d_L0 s /\ nm (g x) <= 4 * Lam * d_delta s) \/ (nm d <= d_delta s /\ nm (g x) <= Lam * d_delta s)).

  Lemma cost_nonneg : forall x, 0 <= cost x. Proof. intros x. apply dot_sq. Qed.

  Lemma call_steps : forall s x dx, ready s x -> 0 < vdot n (g x) (g x) ->
    exists d s', dl_solve_on n s dx (mkCall (cost x) false (system_at n m A b x) (reply solver 0 (g x) dx)) = DLok true d s' /\ stepped x d s'.
  Proof.
    intros s x dx Rd Pa. destruct (reply_ok n m A solver So 0 (g x) dx) as (y & Ey & Y0). assert (Y : forall p, (p < n)%nat -> H y p = g x p) by (intros p Hp; rewrite <- Y0 by auto; ring).
    rewrite Ey. set (r := g x) in *. set (a := vdot n r r) in *. set (hr := vdot m (Av r) (Av r)). set (al := a / hr). set (sd := vscale al r).
    destruct (basics n m A b mu Lam Mg Rc x Pa) as ((M0 & ML) & _ & Hr). fold r hr in Hr.
    pose proof (al_pos n m A b mu Lam Mg Rc x Pa : 0 < al) as Al. pose proof (al_Lam n m A b mu Lam Mg Rc x Pa : 1 <= al * Lam) as AL. pose proof (nr_pos n m A b x Pa : 0 < nm r) as Nr.
    pose proof (sdn_eq n m A b mu Lam Mg Rc x Pa : nm sd = al * nm r) as Es. pose proof (r_le_sd n m A b mu Lam Mg Rc x Pa : nm r <= Lam * nm sd) as Rs. pose proof (norm_sq n r) as Nq. fold a in Nq.
    pose proof (excess_le n m A b mu Lam Mg Rc xs x y St Y Pa) as Ex. fold r a in Ex.
    assert (Sp : 0 < nm sd) by (rewrite Es; apply Rmult_lt_0_compat; auto).
    assert (Pa' : 0 < a) by exact Pa.
    (* enough decrease *)
    assert (En : forall D, a <= 4 * Lam * D -> mu / (4 * Lam) * (cost x - cost xs) <= D).
    { intros D L. apply Rmult_le_reg_l with (4 * Lam); [lra|]. replace (4 * Lam * (mu / (4 * Lam) * (cost x - cost xs))) with (mu * (cost x - cost xs)) by (field; lra). lra. }
    assert (Big : a <= Lam * (al * a)). { replace (Lam * (al * a)) with (al * Lam * a) by ring. rewrite <- (Rmult_1_l a) at 1. apply Rmult_le_compat_r; lra. }
    assert (Ala : 0 < al * a) by (apply Rmult_lt_0_compat; auto).
    unfold dl_solve_on. cbn [cpf cfresh csolve negb andb cJ rJtJr rhs system_at fst snd]. fold r. fold hr a.
    destruct (Req_EM_T hr 0) as [Z|_]; [lra|]. cbn [andb]. unfold dl_solve, get_dJ, base_enter. cbn [cpf cfresh csolve negb andb cJ rJtJr rhs system_at fst snd base_enter bfirst bJ bpJ get_dJ]. fold r. fold hr a.
    destruct (Req_EM_T hr 0) as [Z|_]; [lra|]. fold al. fold sd. fold (radius s (cost x)).
    destruct (rle (radius s (cost x)) (nm sd) && negb (if Req_EM_T (radius s (cost x)) 0 then true else false)) eqn:B1.
    - apply andb_prop in B1. destruct B1 as (B1 & B2). apply rle_true in B1. destruct (Req_EM_T (radius s (cost x)) 0) as [|Nz]; [discriminate|].
      destruct Rd as [(F & Z)|(F & Dp & Rb)]; [exfalso; apply Nz; unfold radius; rewrite F; exact Z|]. set (de := radius s (cost x)) in *. fold r in Rb.
      destruct (sd_step n m A b mu Lam Mg Rc x Pa de (conj Dp B1)) as (S1 & S2 & S3). fold r in S1, S2, S3. fold a hr in S1, S2, S3. fold al in S1, S2, S3. fold sd in S1, S2, S3.
      eexists. eexists. split; [reflexivity|]. unfold stepped. cbn [d_base base_leave bfirst bJ d_dx d_delta d_L0 d_type]. fold r. fold a.
      assert (Dr : 0 < de * nm r) by (apply Rmult_lt_0_compat; auto).
      split; auto. split; auto. split; auto. split; auto. split; [lra|]. split; [lra|]. split; [|split].
      + apply En. apply Rle_trans with (4 * Lam * (de * nm r)); [|apply Rmult_le_compat_l; lra]. rewrite <- Nq. replace (4 * Lam * (de * nm r)) with (4 * Lam * de * nm r) by ring. apply Rmult_le_compat_r; lra.
      + rewrite <- (norm_sq n (vscale (de / nm sd) sd)), S1, <- Nq. replace (16 * (Lam * Lam) * (de * de)) with ((4 * Lam * de) * (4 * Lam * de)) by ring. apply Rmult_le_compat; lra.
      + left. auto.
    - apply andb_false_iff in B1. set (w := vsub y sd) in *. set (de0 := radius s (cost x)) in *.
      assert (Lt0 : de0 <> 0 -> nm sd < de0). { intros Nz. destruct (Req_EM_T de0 0) as [Z|_]; [contradiction|]. destruct B1 as [B1|B1]; [apply rle_false in B1; exact B1|discriminate]. }
      assert (N0 : 0 <= de0). { destruct Rd as [(F & Z)|(F & Dp & _)]; [unfold de0, radius; rewrite F; lra|unfold de0; lra]. }
      set (de := if Req_EM_T de0 0 then nm (vadd sd (vscale (1 / 2) w)) else de0).
      assert (Sd : nm sd <= de). { unfold de. destruct (Req_EM_T de0 0) as [Z|Z]; [apply (sd_before n m A b mu Lam Mg Rc x y Y Pa)|specialize (Lt0 Z); lra]. }
      assert (Rde : nm r <= Lam * de). { eapply Rle_trans; [apply Rs|]. apply Rmult_le_compat_l; lra. }
      assert (Fin : forall d t, al * a <= cost x - cost (vadd x d) -> forall s', bfirst (d_base s') = false -> bJ (d_base s') = cost x -> d_dx s' = d -> d_delta s' = de -> 0 <= d_L0 s' -> d_type s' = t -> nm d <= de -> stepped x d s').
      { intros d t G s' E1 E2 E3 E4 E5 E6 E7. unfold stepped. fold r. fold a. rewrite E4. split; auto. split; auto. split; auto. split; [lra|]. split; auto. split; [lra|]. split; [apply En|split].
        - eapply Rle_trans; [apply Big|]. apply Rle_trans with (Lam * (cost x - cost (vadd x d))); [apply Rmult_le_compat_l; lra|]. apply Rmult_le_compat_r; lra.
        - pose proof (gain_step n m A b mu Lam Mg Rc x Pa d G) as K. fold r a in K. pose proof (dot_sq n d). assert (0 <= Lam * Lam * vdot n d d) by (apply Rmult_le_pos; auto; apply Rmult_le_pos; lra). lra.
        - right. auto. }
      destruct (rle (nm y) de) eqn:B2.
      + apply rle_true in B2. eexists. eexists. split; [reflexivity|]. eapply Fin; cbn [d_base base_leave bfirst bJ d_dx d_delta d_L0 d_type]; try reflexivity; auto; [|apply cost_nonneg].
        apply (full_gain n m A b mu Lam Mg Rc x y Y Pa).
      + apply rle_false in B2. destruct (dl_beta (vdot n sd w) (vdot n w w) (de * de - nm sd * nm sd)) as [be|] eqn:Be.
        2:{ exfalso. exact (beta_defined n sd y de (nm sd) eq_refl (or_introl Sd) Be). }
        destruct (dl_tail n sd y de0 be _ N0 Lt0 B2 Be eq_refl) as (T1 & T2). specialize (T2 Sd).
        eexists. eexists. split; [reflexivity|]. eapply Fin; cbn [d_base base_leave bfirst bJ d_dx d_delta d_L0 d_type]; try reflexivity.
        * apply (dl_gain n m A b mu Lam Mg Rc x y Y Pa be T2).
        * pose proof (cost_nonneg x). apply Rmult_le_pos; auto. apply Rmult_le_pos; lra.
        * apply Req_le. exact T1.
  Qed.

  Lemma ratio_pos : forall D L, 0 < D -> 0 <= L -> xdiv D L = PInf \/ exists r, xdiv D L = Fin r /\ 0 < r.
  Proof.
    intros D L Dp Lp. unfold xdiv. destruct (Req_EM_T L 0) as [Z|Z].
    - destruct (Req_EM_T D 0); [lra|]. destruct (Rlt_dec 0 D); [auto|lra].
    - right. eexists. split; [reflexivity|]. apply Rdiv_lt_0_compat; lra.
  Qed.
  Lemma stepped_ready : 0 < Lam -> forall x d s, stepped x d s -> ready s (vadd x d) /\ 0 < radius s (cost (vadd x d)).
  Proof.
    intros Lp x d s (F & EJ & Ed & Dp & L0 & D & _ & _ & T). pose proof (r_next n m A b Lam Rc ltac:(lra) x d) as Rn.
    assert (G : 0 < radius s (cost (vadd x d)) /\ nm (g (vadd x d)) <= 4 * Lam * radius s (cost (vadd x d))); [|split; [right; auto|apply G]].
    unfold radius. rewrite F, EJ. set (D' := cost x - cost (vadd x d)) in *. set (de := d_delta s) in *.
    assert (Pd : 0 < Lam * de) by (apply Rmult_lt_0_compat; auto).
    assert (Low : forall k, de / 2 <= k -> nm d <= de -> nm (g x) <= Lam * de -> 0 < k /\ nm (g (vadd x d)) <= 4 * Lam * k).
    { intros k K N1 N2. split; [lra|]. assert (Lam * nm d <= Lam * de) by (apply Rmult_le_compat_l; lra). assert (Lam * (de / 2) <= Lam * k) by (apply Rmult_le_compat_l; lra). lra. }
    unfold dl_radius. rewrite Ed. fold de. destruct T as [(Ty & N & Q & Nr)|(N & Nr)].
    - assert (Er : xdiv D' (d_L0 s) = Fin 2). { unfold xdiv. destruct (Req_EM_T (d_L0 s) 0) as [Z|Z]; [lra|]. rewrite Q. f_equal. field. auto. }
      rewrite Er. unfold xgt. rewrite (proj2 (Lin_Proofs2.rlt_true _ _)) by lra. rewrite N. rewrite (proj2 (Lin_Proofs2.rle_true _ _)) by lra. split; [lra|]. rewrite N in Rn. lra.
    - destruct (ratio_pos D' (d_L0 s) D L0) as [Er|(r & Er & Rp)]; rewrite Er.
      + cbn [xgt]. destruct (rle de (3 * nm d)) eqn:B; apply Low; auto; [apply Lin_Proofs2.rle_true in B; lra|lra].
      + unfold xgt, xlt, xle. destruct (rlt (3 / 4) r); [destruct (rle de (3 * nm d)) eqn:B; apply Low; auto; [apply Lin_Proofs2.rle_true in B; lra|lra]|].
        rewrite (proj2 (Lin_Proofs2.rlt_true 0 r) Rp). cbn [andb]. destruct (rlt r (1 / 4)); [apply Low; auto; lra|]. rewrite (proj2 (Lin_Proofs2.rle_false r 0) Rp). apply Low; auto; lra.
  Qed.
  (* a call when there is nothing left to do *)
  Lemma call_rests : forall s x dx, 0 < radius s (cost x) -> stat n m A b x ->
    exists d s', dl_solve_on n s dx (mkCall (cost x) false (system_at n m A b x) (reply solver 0 (g x) dx)) = DLok true d s' /\ (forall p, (p < n)%nat -> d p = 0).
  Proof.
    intros s x dx Rp Sx. destruct (reply_ok n m A solver So 0 (g x) dx) as (y & Ey & Y0). assert (Y : forall p, (p < n)%nat -> y p = 0).
    { apply (H_inj n m A mu Mg). intros p Hp. pose proof (Y0 p Hp) as E. rewrite (Sx p Hp) in E. lra. }
    rewrite Ey. unfold dl_solve_on, get_dJ, base_enter. cbn [cpf cfresh csolve negb andb cJ rJtJr rhs system_at fst snd base_enter bfirst bJ bpJ get_dJ]. 
    assert (Z1 : vdot n (g x) (g x) = 0) by (apply dot0; exact Sx).
    assert (Z2 : vdot m (Av (g x)) (Av (g x)) = 0). { apply dot0. intros p _. apply (@ksum_zero R RRing). intros k Hk. rewrite (Sx k Hk). cbn. ring. }
    rewrite Z1, Z2. destruct (Req_EM_T 0 0) as [_|Z]; [|contradiction]. cbn [andb]. fold (radius s (cost x)).
    destruct (Req_EM_T (radius s (cost x)) 0) as [Z|_]; [lra|].
    assert (Ny : nm y = 0) by (apply norm_eq; [lra|]; rewrite (dot0 n y y Y); ring).
    rewrite Ny, (proj2 (Lin_Proofs2.rle_true 0 _)) by lra. eexists. eexists. split; [reflexivity|exact Y].
  Qed.

  Variable x0 : vec R.
  Hypothesis Nm : ~ minimal n m A b x0.
  Let q := 1 - mu / (4 * Lam).
  Lemma moving : forall x, stat n m A b x \/ 0 < vdot n (g x) (g x).
  Proof. intros x. pose proof (dot_sq n (g x)). destruct (Req_dec (vdot n (g x) (g x)) 0) as [Z|Z]; [left; exact (dot_zero n _ Z)|right; lra]. Qed.
  Lemma moves0 : 0 < vdot n (g x0) (g x0).
  Proof. destruct (moving x0) as [S|S]; auto. exfalso. apply Nm. apply stat_minimal; auto. Qed.
  Lemma Lam_facts : 0 < mu <= Lam. Proof. split; [apply Mg|]. exact (Lam_pos_of n m A mu Lam Mg Rc _ moves0). Qed.
  Lemma q_facts : 0 < q < 1.
  Proof.
    destruct Lam_facts as (M0 & M1). unfold q. assert (0 < mu / (4 * Lam)) by (apply Rdiv_lt_0_compat; lra). assert (mu / (4 * Lam) <= 1 / 4); [|lra].
    apply Rmult_le_reg_r with (4 * Lam); [lra|]. unfold Rdiv at 1. rewrite Rmult_assoc, Rinv_l by lra. lra.
  Qed.

  Lemma solve_is : forall s J x dx, p_solve po (Some s) J false x dx = match dl_solve_on n s dx (mkCall J false (system_at n m A b x) (reply solver 0 (g x) dx)) with DLok ok d s' => (ok, d, Some s') | _ => (true, dx, None) end.
  Proof. reflexivity. Qed.
  Lemma reverts : p_reverts po = true. Proof. reflexivity. Qed.
  Definition dinv (k : nat) (l : lst po) : Prop :=
    l_it po l = Z.of_nat k /\ l_fail po l = 0%Z /\ l_lsf po l = false /\ l_pf po l = false /\ l_J po l = cost (l_x po l) /\ l_pJ po l = cost (l_x po l) /\
    cost (l_x po l) - cost xs <= q ^ k * (cost x0 - cost xs) /\
    exists s, l_pol po l = Some s /\
      match k with
      | O => bfirst (d_base s) = true /\ d_delta s = 0 /\ l_x po l = x0 /\ l_mdx po l = o_dx opt + 1 /\ l_dJ po l = o_dJ opt + 1
      | S _ => l_mdx po l = maxabs n (l_d po l) /\
          ((exists xp, l_x po l = vadd xp (l_d po l) /\ stepped xp (l_d po l) s /\ 0 < vdot n (g xp) (g xp) /\ l_dJ po l = cost xp - cost (l_x po l)) \/
           (l_mdx po l = 0 /\ cost (l_x po l) = cost xs))
      end.
  Lemma dinv_start : dinv 0 (lin_start n m A b po opt x0).
  Proof. repeat (split; [reflexivity|]). split; [cbn [pow]; unfold lin_start; cbn [l_x]; lra|]. eexists. split; [reflexivity|]. repeat split. Qed.
  Lemma dinv_step : forall k l, dinv k l -> lin_continue po opt l = true -> dinv (Datatypes.S k) (lin_iteration n m A b po l).
  Proof.
    intros k l (I1 & I2 & I3 & I4 & I5 & I6 & I7 & s & Es & X) C. destruct Lam_facts as (M0 & ML). destruct q_facts as (Q0 & Q1).
    assert (Rd : ready s (l_x po l) /\ (0 < vdot n (g (l_x po l)) (g (l_x po l)) \/ (stat n m A b (l_x po l) /\ 0 < radius s (cost (l_x po l))))).
    { destruct k as [|k].
      - destruct X as (F & Z & Ex & _). split; [left; auto|]. left. rewrite Ex. exact moves0.
      - destruct X as (Em & [(xp & Ex & Sp & _ & _)|(Z & _)]).
        + destruct (stepped_ready ltac:(lra) xp (l_d po l) s Sp) as (R1 & R2). rewrite Ex. split; [exact R1|]. destruct (moving (vadd xp (l_d po l))) as [S|S]; auto.
        + exfalso. unfold lin_continue in C. rewrite I3, Z, orb_false_r in C. apply andb_prop in C. destruct C as (_ & C). apply andb_prop in C. destruct C as (C & _). apply Lin_Proofs2.rlt_true in C. destruct Oo as (O1 & _). lra. }
    destruct Rd as (Rd & Mv). set (x := l_x po l) in *. pose proof (stat_minimal n m A b xs St x) as Mx.
    unfold lin_iteration. rewrite Es, I4, I5, solve_is, reverts. fold x.
    destruct Mv as [Pa|(Sx & Rp)].
    - destruct (call_steps s x (l_d po l) Rd Pa) as (d & s' & E & Sp). fold x in E. rewrite E. pose proof Sp as (_ & _ & _ & _ & _ & Dp & Dq & _).
      assert (NR : rlt (l_pJ po l - cost (vadd x d)) 0 = false) by (apply Lin_Proofs2.rlt_false; rewrite I6; lra). rewrite NR.
      unfold dinv. cbn [l_it l_fail l_lsf l_pf l_J l_pJ l_x l_pol l_d l_dJ l_mdx]. split; [lia|]. split; auto. split; auto. split; auto. split; auto. split; auto. split.
      + cbn [pow]. apply Rle_trans with (q * (cost x - cost xs)); [unfold q; lra|]. rewrite Rmult_assoc. apply Rmult_le_compat_l; lra.
      + exists s'. split; auto. split; auto. left. exists x. rewrite I6. auto.
    - destruct (call_rests s x (l_d po l) Rp Sx) as (d & s' & E & Z). rewrite E.
      assert (Ec : cost (vadd x d) = cost x) by (apply cost_ext; intros i Hi; unfold vadd; rewrite Z by auto; cbn; ring).
      assert (Exs : cost x = cost xs) by (pose proof (stat_minimal n m A b x Sx xs); lra).
      assert (NR : rlt (l_pJ po l - cost (vadd x d)) 0 = false) by (apply Lin_Proofs2.rlt_false; rewrite I6, Ec; fold x; lra). rewrite NR.
      unfold dinv. cbn [l_it l_fail l_lsf l_pf l_J l_pJ l_x l_pol l_d l_dJ l_mdx]. split; [lia|]. split; auto. split; auto. split; auto. split; auto. split; auto. split.
      + rewrite Ec, Exs. pose proof (stat_minimal n m A b xs St x0). assert (0 <= q ^ Datatypes.S k * (cost x0 - cost xs)) by (apply Rmult_le_pos; [apply pow_le; lra|lra]). lra.
      + exists s'. split; auto. split; auto. right. split; [apply maxabs_zero; exact Z|lra].
  Qed.
  Lemma dinv_loop : forall fuel k l, dinv k l -> (Z.to_nat (o_max opt) <= fuel + k)%nat -> exists k' l', lin_loop n m A b po opt fuel l = Some l' /\ dinv k' l' /\ lin_continue po opt l' = false /\ (k <= k')%nat.
  Proof.
    induction fuel as [|f IH]; intros k l I F; cbn [lin_loop].
    - assert (C : lin_continue po opt l = false). { unfold lin_continue. destruct I as (I1 & _). rewrite I1, (proj2 (Z.ltb_ge (Z.of_nat k) (o_max opt))) by lia. reflexivity. }
      rewrite C. exists k, l. auto.
    - destruct (lin_continue po opt l) eqn:C; [|exists k, l; auto]. destruct (IH (Datatypes.S k) _ (dinv_step k l I C) ltac:(lia)) as (k' & l' & E & I' & C' & L). exists k', l'. split; auto. split; auto. split; auto. lia.
  Qed.
  Lemma dinv_max : forall fuel k l k' l', dinv k l -> (Z.of_nat k <= o_max opt)%Z -> lin_loop n m A b po opt fuel l = Some l' -> dinv k' l' -> (Z.of_nat k' <= o_max opt)%Z.
  Proof.
    induction fuel as [|f IH]; intros k l k' l' I L E I'; cbn [lin_loop] in E; destruct (lin_continue po opt l) eqn:C; try discriminate.
    - injection E as <-. destruct I as (I1 & _), I' as (I1' & _). lia.
    - apply (IH (Datatypes.S k) _ k' l' (dinv_step k l I C)); auto. unfold lin_continue in C. apply andb_prop in C. destruct C as (C & _). apply andb_prop in C. destruct C as (C & _). apply Z.ltb_lt in C. destruct I as (I1 & _). lia.
    - injection E as <-. destruct I as (I1 & _), I' as (I1' & _). lia.
  Qed.
  Lemma dl_run : solved_by_dog_leg n m A b mu Lam opt solver s0 xs x0.
  Proof.
    destruct (dinv_loop (Z.to_nat (o_max opt) + Z.to_nat (o_max opt)) 0 _ dinv_start ltac:(lia)) as (k & l & E & I & C & _). pose proof (dinv_max _ _ _ _ _ dinv_start ltac:(destruct Oo; lia) E I) as Mx.
    unfold solved_by_dog_leg. cbn zeta. exists l. split; [exact E|]. pose proof I as (I1 & I2 & I3 & I4 & I5 & I6 & I7 & s & Es & X). split; [rewrite Es; discriminate|]. split; auto. split; auto.
    destruct k as [|k].
    { exfalso. destruct X as (_ & _ & _ & X1 & X2). assert (C2 : lin_continue po opt l = true); [|congruence]. destruct Oo as (O1 & O2 & O3). unfold lin_continue. rewrite I1, I2, X1, X2. change (Z.of_nat 0) with 0%Z. rewrite !(proj2 (Z.ltb_lt 0 (o_max opt))) by lia. rewrite Rabs_right by lra. rewrite !(proj2 (Lin_Proofs2.rlt_true _ _)) by lra. reflexivity. }
    split; [lia|]. split; [rewrite I1, Nat2Z.id; exact I7|]. destruct Lam_facts as (M0 & ML). destruct Oo as (O1 & O2 & O3). split.
    { rewrite (excess n m A b xs _ St). apply Mg. }
    intros Lt. assert (Nn : 0 <= INR n) by apply pos_INR. assert (Ld : 1 <= Lam / mu) by (apply div_ge1; lra).
    destruct X as (Em & [(xp & Ex & Sp & Pa & Ed)|(Z & Ec)]).
    - destruct Sp as (_ & _ & _ & _ & _ & Dp & Dq & Gd & _). rewrite <- Ex in Dp, Dq. destruct (status_good opt Oo po l I3 I2 C Lt) as [(G1 & G2)|(G1 & G2)].
      + left. split; auto. apply Rmult_le_reg_l with mu; auto. replace (mu * (16 * Lam ^ 2 * INR n * o_dx opt ^ 2 / mu)) with (16 * (Lam * Lam) * (INR n * (o_dx opt * o_dx opt))) by (field; lra).
        assert (EL : mu * (cost xp - cost xs) <= vdot n (g xp) (g xp)).
        { destruct (reply_ok n m A solver So 0 (g xp) (fun _ => 0)) as (y & _ & Y0). apply (excess_le n m A b mu Lam Mg Rc xs xp y St); auto. intros p Hp. rewrite <- Y0 by auto. ring. }
        apply Rle_trans with (mu * (cost xp - cost xs)); [apply Rmult_le_compat_l; lra|]. eapply Rle_trans; [apply EL|]. eapply Rle_trans; [apply Gd|]. apply Rmult_le_compat_l; [pose proof (Rmult_lt_0_compat Lam Lam ltac:(lra) ltac:(lra)); lra|].
        eapply Rle_trans; [apply maxabs_dot|]. apply Rmult_le_compat_l; auto. rewrite Em in G2. pose proof (maxabs_nonneg n (l_d po l)). apply Rmult_le_compat; auto.
      + right. split; auto. rewrite Ed, Rabs_right in G2 by lra. set (e0 := cost xp - cost xs) in *. set (e1 := cost (l_x po l) - cost xs) in *. assert (De : cost xp - cost (l_x po l) = e0 - e1) by (unfold e0, e1; lra). rewrite De in G2, Dq.
        assert (K : e0 <= 4 * Lam / mu * (e0 - e1)). { apply Rmult_le_reg_l with (mu / (4 * Lam)); [apply Rdiv_lt_0_compat; lra|]. replace (mu / (4 * Lam) * (4 * Lam / mu * (e0 - e1))) with (e0 - e1) by (field; lra). exact Dq. }
        assert (K2 : (4 * Lam / mu - 1) * (e0 - e1) <= (4 * Lam / mu - 1) * o_dJ opt); [|lra]. apply Rmult_le_compat_l; [|exact G2]. replace (4 * Lam / mu) with (4 * (Lam / mu)) by (field; lra). lra.
    - assert (E0 : cost (l_x po l) - cost xs = 0) by lra. rewrite E0. left. split.
      + unfold lin_status. rewrite I3, I2, (proj2 (Z.leb_gt _ _) Lt), (proj2 (Z.leb_gt (o_max opt) 0)) by lia. cbn [orb]. rewrite Z, (proj2 (Lin_Proofs2.rle_true 0 _)) by lra. reflexivity.
      + apply Rmult_le_pos; [|apply Rlt_le, Rinv_0_lt_compat; lra]. repeat apply Rmult_le_pos; auto; lra || (apply pow_le; lra).
  Qed.
End Run.
