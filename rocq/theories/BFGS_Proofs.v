From Coq Require Import ZArith Reals Lra Lia List Bool.
From Verif Require Import Lib_Ring Lib_Real Lib_Res Lib_Num LineSearch_Model LineSearch_Spec LineSearch_Proofs LineSearch_ProofsR BFGS_Model BFGS_Spec.
Import ListNotations.
Open Scope R_scope.

Section U.
  Variable n : nat.
  Implicit Types (B : mat R) (s y x : vec R).

  (* the product with A^T *)
  Definition At (rho : R) s y x : vec R := fun j => x j - rho * y j * vdot n s x.

  Lemma At_mul : forall rho s y x j, (j < n)%nat ->
    mvmul n (mtr (msub mid (fun i j => s i * y j * rho))) x j = At rho s y x j.
  Proof.
    intros rho s y x j Hj. unfold mvmul, mtr, msub, At, vdot.
    rewrite (ksum_ext n _ (fun k => ksub (kmul (delta j k) (x k)) (kmul (kmul rho (y j)) (kmul (s k) (x k))))).
    - rewrite ksum_sub, ksum_delta_l, ksum_mul_l by auto. reflexivity.
    - intros k Hk. unfold mid. rewrite (delta_sym k j). cbn. ring.
  Qed.

  Lemma quad_A : forall A B x, vdot n x (mvmul n (mmul n A (mmul n B (mtr A))) x) =
    vdot n (mvmul n (mtr A) x) (mvmul n B (mvmul n (mtr A) x)).
  Proof.
    intros A B x. rewrite <- vdot_mvmul.
    apply vdot_ext; [apply veq_refl|]. intros i Hi. rewrite mvmul_mmul.
    apply (mvmul_ext n n A A); auto using meq_refl. intros k Hk. rewrite mvmul_mmul. reflexivity.
  Qed.

  Lemma mvmul_madd : forall A B x i, mvmul n (madd A B) x i = mvmul n A x i + mvmul n B x i.
  Proof.
    intros. unfold mvmul, madd. change Rplus with (kadd (K:=R)). rewrite <- ksum_add. apply ksum_ext. intros. cbn. ring.
  Qed.
  Lemma mvmul_outer : forall a s x i, mvmul n (fun i j => a * s i * s j) x i = a * s i * vdot n s x.
  Proof.
    intros. unfold mvmul, vdot. change Rmult with (kmul (K:=R)). rewrite <- ksum_mul_l. apply ksum_ext. intros. cbn. ring.
  Qed.

  Lemma quad_update : forall B s y x, let rho := bfgs_rho n y s in
    vdot n x (mvmul n (bfgs_update n B s y) x) =
    vdot n (At rho s y x) (mvmul n B (At rho s y x)) + rho * vdot n s x * vdot n s x.
  Proof.
    intros B s y x rho. unfold bfgs_update. fold rho. cbv zeta.
    set (A := msub mid (fun i j => s i * y j * rho)).
    rewrite (vdot_ext n x x _ (vadd (mvmul n (mmul n A (mmul n B (mtr A))) x) (vscale (rho * vdot n s x) s))).
    - rewrite vdot_add_r, quad_A, vdot_scale_r.
      rewrite (vdot_comm n x s). cbn. f_equal.
      assert (V : veq n (mvmul n (mtr A) x) (At rho s y x)) by (intros j Hj; apply At_mul; auto).
      apply vdot_ext; auto. apply mvmul_ext; auto using meq_refl.
    - apply veq_refl.
    - intros i Hi. rewrite mvmul_madd, mvmul_outer. unfold vadd, vscale. cbn. ring.
  Qed.

  Lemma update_symmetric : forall B s y, symmetric n B -> symmetric n (bfgs_update n B s y).
  Proof.
    intros B s y S i j Hi Hj. unfold bfgs_update, madd. cbv zeta.
    set (A := msub mid (fun i j => s i * y j * bfgs_rho n y s)).
    change (kadd (mmul n A (mmul n B (mtr A)) i j) (bfgs_rho n y s * s i * s j) = kadd (mmul n A (mmul n B (mtr A)) j i) (bfgs_rho n y s * s j * s i)).
    f_equal; [|cbn; ring].
    change (mmul n A (mmul n B (mtr A)) j i) with (mtr (mmul n A (mmul n B (mtr A))) i j).
    rewrite mmul_tr.
    rewrite (mmul_ext n n n (mtr (mmul n B (mtr A))) (mmul n A B) (mtr A) (mtr A)); auto using meq_refl.
    - rewrite mmul_assoc_pt. reflexivity.
    - intros a b Ha Hb. rewrite mmul_tr. apply (mmul_ext n n n); auto using meq_refl. intros c d Hc Hd. unfold mtr. apply S; auto.
  Qed.

  Lemma update_secant : forall B s y, vdot n y s <> 0 -> veq n (mvmul n (bfgs_update n B s y) y) s.
  Proof.
    intros B s y N i Hi. unfold bfgs_update. cbv zeta. set (rho := bfgs_rho n y s).
    assert (Rr : rho * vdot n s y = 1).
    { unfold rho, bfgs_rho. destruct (Req_EM_T _ _); [contradiction|]. rewrite (vdot_comm n s y). field. auto. }
    set (A := msub mid (fun i j => s i * y j * rho)). rewrite mvmul_madd, mvmul_outer.
    assert (Z : mvmul n (mmul n A (mmul n B (mtr A))) y i = 0).
    { rewrite mvmul_mmul. unfold mvmul at 1. apply (@ksum_zero _ RRing). intros k Hk.
      rewrite mvmul_mmul. unfold mvmul at 1.
      assert (Q : ksum n (fun k0 => kmul (B k k0) (mvmul n (mtr A) y k0)) = 0).
      { apply (@ksum_zero _ RRing). intros m Hm. assert (E := At_mul rho s y y m Hm). fold A in E. rewrite E. unfold At.
        replace (y m - rho * y m * vdot n s y) with (y m * (1 - rho * vdot n s y)) by ring. rewrite Rr. cbn. ring. }
      rewrite Q. cbn. ring. }
    rewrite Z. replace (rho * s i * vdot n s y) with (s i * (rho * vdot n s y)) by ring. rewrite Rr. ring.
  Qed.

  Lemma nonzero_dec : forall x, nonzero n x \/ (forall i, (i < n)%nat -> x i = 0).
  Proof.
    intros x. unfold nonzero. induction n as [|m IH]; [right; intros; lia|].
    destruct IH as [(i & Hi & Hx)|Z]; [left; exists i; auto|].
    destruct (Req_EM_T (x m) 0) as [E|E]; [right|left; exists m; auto].
    intros i Hi. assert (i = m \/ (i < m)%nat) as [->|] by lia; auto.
  Qed.

  Lemma update_pd : forall B s y, positive_definite n B -> 0 < vdot n y s -> positive_definite n (bfgs_update n B s y).
  Proof.
    intros B s y P Hys x Nx. rewrite quad_update. set (rho := bfgs_rho n y s).
    assert (Rp : 0 < rho).
    { unfold rho, bfgs_rho. destruct (Req_EM_T _ _); [lra|]. apply Rdiv_lt_0_compat; lra. }
    assert (Q2 : 0 <= rho * vdot n s x * vdot n s x).
    { rewrite Rmult_assoc. apply Rmult_le_pos; [lra|]. apply Rle_0_sqr. }
    destruct (nonzero_dec (At rho s y x)) as [Na|Za].
    - pose proof (P _ Na). lra.
    - assert (Hs : vdot n s x <> 0).
      { intros E. destruct Nx as (i & Hi & Hx). apply Hx. specialize (Za i Hi). unfold At in Za. rewrite E in Za. lra. }
      rewrite (vdot_ext n (At rho s y x) (fun _ => 0) (mvmul n B (At rho s y x)) (mvmul n B (At rho s y x))); [|exact Za|apply veq_refl].
      assert (Z0 : vdot n (fun _ : nat => 0) (mvmul n B (At rho s y x)) = 0).
      { unfold vdot. apply (@ksum_zero _ RRing). intros. cbn. ring. }
      rewrite Z0. rewrite Rmult_assoc. assert (0 < vdot n s x * vdot n s x) by (apply Rsqr_pos_lt; auto).
      assert (0 < rho * (vdot n s x * vdot n s x)) by (apply Rmult_lt_0_compat; auto). lra.
  Qed.

  Lemma id_symmetric : symmetric n mid.
  Proof. intros i j _ _. unfold mid. apply delta_sym. Qed.
  Lemma vdot_self : forall x, nonzero n x -> 0 < vdot n x x.
  Proof.
    intros x. unfold nonzero, vdot. induction n as [|m IH]; intros (i & Hi & Hx); [lia|]. cbn [ksum].
    assert (P : forall k, 0 <= ksum k (fun i => kmul (x i) (x i))).
    { induction k; cbn [ksum]; [cbn; lra|]. pose proof (Rle_0_sqr (x k)). unfold Rsqr in *. cbn in *. lra. }
    assert (i = m \/ (i < m)%nat) as [->|L] by lia.
    - pose proof (P m). assert (0 < x m * x m) by (apply Rsqr_pos_lt; auto). cbn in *. lra.
    - pose proof (Rle_0_sqr (x m)). unfold Rsqr in *. assert (0 < ksum m (fun i => kmul (x i) (x i))) by (apply IH; exists i; auto). cbn in *. lra.
  Qed.
  Lemma id_pd : positive_definite n mid.
  Proof.
    intros x Nx. rewrite (vdot_ext n x x (mvmul n mid x) x); [apply vdot_self; auto|apply veq_refl|]. intros i Hi. apply mvmul_id; auto.
  Qed.

  Lemma direction_slope : forall B g, vdot n g (bfgs_direction n B g) = - vdot n g (mvmul n B g).
  Proof.
    intros. unfold bfgs_direction, vdot. rewrite (ksum_ext n _ (fun i => kopp (kmul (g i) (mvmul n B g i)))); [exact (ksum_opp n _)|].
    intros. cbn. ring.
  Qed.
  Lemma direction_descent : forall B g, positive_definite n B -> nonzero n g -> vdot n g (bfgs_direction n B g) < 0.
  Proof. intros B g P N. rewrite direction_slope. specialize (P g N). lra. Qed.
End U.

Section Run.
  Context {W : Type}.
  Variables (n : nat) (errorOf : W -> R) (gradOf : W -> vec R) (update : W -> vec R -> W).
  Variable o : lsoptions R.
  Variable stop : lstate R W (vec R) -> bool.
  Hypothesis add : forall p, additive (shift update p).
  Hypothesis ck : check_ls o = true.
  Implicit Types (st : bfgs W).

  (* between iterations: the line search describes the current point *)
  Definition bok st : Prop :=
    l_eOut (bl st) = false /\ l_error (bl st) = errorOf (l_world (bl st)) /\ l_grad (bl st) = gradOf (l_world (bl st)) /\ bg st = l_grad (bl st).

  Lemma start_bok : forall w eo d0, bok (bfgs_start errorOf gradOf w eo d0).
  Proof. intros. unfold bok. cbn. auto. Qed.

  Lemma set_ready : forall p l l1, l_eOut l = false -> l_error l = errorOf (l_world l) -> l_grad l = gradOf (l_world l) ->
    setSearchDirection (along n p) l = Ok l1 ->
    ready errorOf gradOf (along n p) l1 /\ l_world l1 = l_world l /\ l_grad l1 = l_grad l /\ l_derror l1 = along n p (l_grad l) /\ l_derror l1 <= 0.
  Proof.
    intros p l l1 E1 E2 E3 H. unfold setSearchDirection in H.
    destruct (nle _ _) eqn:L; [|discriminate]. injection H as <-. apply Rleb_true in L. rewrite lit_R in L. cbn in L.
    unfold ready, current. cbn [l_eOut l_dOut l_error l_grad l_world l_derror l_step]. repeat split; auto; lra.
  Qed.

  Lemma bset : forall st B p l, bok st -> bfgs_set n st = Ok (B, p, l) ->
    ready errorOf gradOf (along n p) l /\ l_world l = l_world (bl st) /\ l_derror l = along n p (bg st) /\ l_derror l <= 0 /\
    p = bfgs_direction n B (bg st) /\ (B = bB st \/ (B = mid /\ 0 < along n (bfgs_direction n (bB st) (bg st)) (bg st))).
  Proof.
    intros st B p l (E1 & E2 & E3 & E4) H. unfold bfgs_set in H. rewrite E4 in *.
    destruct (setSearchDirection (along n (bfgs_direction n (bB st) _)) (bl st)) as [l1| |] eqn:S1.
    - injection H as <- <- <-. destruct (set_ready _ _ _ E1 E2 E3 S1) as (A & B' & C & D & F). repeat split; auto; apply A.
    - destruct (setSearchDirection (along n (bfgs_direction n mid _)) (bl st)) as [l1| |] eqn:S2; try discriminate.
      injection H as <- <- <-. destruct (set_ready _ _ _ E1 E2 E3 S2) as (A & B' & C & D & F). repeat split; auto; try apply A.
      right. split; auto. unfold setSearchDirection in S1. destruct (nle _ _) eqn:L in S1; [discriminate|]. apply Rleb_false in L.
      rewrite lit_R in L. cbn in L. lra.
    - unfold setSearchDirection in S1. destruct (nle _ _) in S1; discriminate.
  Qed.

  Lemma step : forall st it nxt, bok st -> bfgs_iteration n errorOf gradOf update o stop st = Ok (it, nxt) ->
    i_g it = gradOf (i_from it) /\ i_from it = l_world (bl st) /\ i_p it = bfgs_direction n (i_B it) (i_g it) /\
    i_to it = update (i_from it) (vscale (i_alpha it) (i_p it)) /\ vdot n (i_g it) (i_p it) <= 0 /\
    (i_B it = bB st \/ (i_B it = mid /\ 0 < vdot n (i_g it) (bfgs_direction n (bB st) (i_g it)))) /\
    forall st1, nxt = Some st1 -> bok st1 /\ l_world (bl st1) = i_to it /\ 
      bB st1 = bfgs_update n (i_B it) (vscale (i_alpha it) (i_p it)) (vsub (bg st1) (i_g it)) /\
      strong_curvature (c2 o) (vdot n (i_g it) (i_p it)) (vdot n (bg st1) (i_p it)).
  Proof.
    intros st it nxt Hb H. unfold bfgs_iteration in H.
    destruct (bfgs_set n st) as [[[B p] l]| |] eqn:S; try discriminate. cbn [bind] in H.
    destruct (bset _ _ _ _ Hb S) as (Rd & Wl & Dl & Dn & Hp & HB). pose proof Hb as (E1 & E2 & E3 & E4).
    destruct (lineSearchWolfe12 _ _ _ _ _ _) as [[ok l1]| |] eqn:L; try discriminate. cbn [bind] in H.
    destruct (wolfe12_R _ _ _ _ (add p) _ _ _ _ ck Dn Rd L) as ((M & _) & T).
    assert (X : it = mkIter B (bg st) p (l_step l1) (l_world l) (l_world l1)).
    { destruct (negb ok || stop l1) in H; injection H; auto. }
    subst it. cbn [i_B i_g i_p i_alpha i_from i_to]. split; [congruence|]. split; auto. split; auto. split; [exact M|].
    split; [rewrite Dl in Dn; exact Dn|]. split; [exact HB|].
    intros st1 ->. destruct ok; cbn [negb orb] in H; [|discriminate].
    destruct (stop l1) in H; [discriminate|]. assert (inj : forall a b : iter W * option (bfgs W), Ok a = Ok b -> snd a = snd b) by congruence.
    apply inj in H. cbn [snd] in H. injection H as <-. destruct (T eq_refl) as (C & Sc & _). destruct C as (C1 & C2 & C3 & C4 & C5).
    cbn [bB bg bl]. unfold bok. cbn [bB bg bl]. repeat split; auto. rewrite Dl, C5 in Sc. exact Sc.
  Qed.

  (* all matrices of a run are symmetric *)
  Lemma run_symmetric : forall m st its en, bok st -> symmetric n (bB st) -> bfgs_loop n errorOf gradOf update o stop m st = Ok (its, en) ->
    Forall (fun it => symmetric n (i_B it)) its /\ symmetric n (bB en).
  Proof.
    induction m as [|m IH]; intros st its en Hb Sy H; cbn [bfgs_loop] in H; [injection H as <- <-; auto|].
    destruct (bfgs_iteration _ _ _ _ _ _ _) as [[it nxt]| |] eqn:I; try discriminate. cbn [bind fst snd] in H.
    destruct (step _ _ _ Hb I) as (_ & _ & _ & _ & _ & HB & Nx).
    assert (Si : symmetric n (i_B it)) by (destruct HB as [->|[-> _]]; auto using id_symmetric).
    destruct nxt as [st1|]; [|injection H as <- <-; auto].
    destruct (bfgs_loop _ _ _ _ _ _ m st1) as [[its' en']| |] eqn:L; try discriminate. cbn [bind fst snd] in H. injection H as <- <-.
    destruct (Nx _ eq_refl) as (Hb1 & _ & E & _). destruct (IH st1 its' en' Hb1) as (F & G); auto. rewrite E. apply update_symmetric; auto.
  Qed.

  Lemma loop_links : forall m st its en, bok st -> bfgs_loop n errorOf gradOf update o stop m st = Ok (its, en) ->
    Forall (fun it => i_g it = gradOf (i_from it) /\ i_p it = bfgs_direction n (i_B it) (i_g it) /\
      i_to it = update (i_from it) (vscale (i_alpha it) (i_p it)) /\ vdot n (i_g it) (i_p it) <= 0) its.
  Proof.
    induction m as [|m IH]; intros st its en Hb H; cbn [bfgs_loop] in H; [injection H as <- <-; auto|].
    destruct (bfgs_iteration _ _ _ _ _ _ _) as [[it nxt]| |] eqn:I; try discriminate. cbn [bind fst snd] in H.
    destruct (step _ _ _ Hb I) as (A1 & A2 & A3 & A4 & A5 & HB & Nx).
    destruct nxt as [st1|]; [|injection H as <- <-; constructor; auto].
    destruct (bfgs_loop _ _ _ _ _ _ m st1) as [[its' en']| |] eqn:L; try discriminate. cbn [bind fst snd] in H. injection H as <- <-.
    destruct (Nx _ eq_refl) as (Hb1 & _). constructor; [auto|]. apply (IH _ _ _ Hb1 L).
  Qed.

  Lemma vdot_zero_l : forall g p, (forall i, (i < n)%nat -> g i = 0) -> vdot n g p = 0.
  Proof. intros g p Z. unfold vdot. apply (@ksum_zero _ RRing). intros i Hi. rewrite Z by auto. cbn. ring. Qed.

  Lemma vdot_nonneg : forall B g, positive_definite n B -> 0 <= vdot n g (mvmul n B g).
  Proof.
    intros B g P. destruct (nonzero_dec n g) as [N|Z]; [apply Rlt_le, P, N|]. rewrite vdot_zero_l by auto. lra.
  Qed.

  (* a step taken by a successful line search from a point whose gradient does not vanish, with c2 < 1, is along positive curvature *)
  Lemma curvature : forall a d d', 0 <= a -> a <> 0 -> c2 o < 1 -> d < 0 -> strong_curvature (c2 o) d d' -> 0 < a * (d' - d).
  Proof.
    intros a d d' A0 A1 C2 D Sc. unfold strong_curvature in Sc.
    apply Rmult_lt_0_compat; [lra|]. unfold Rabs in Sc. destruct (Rcase_abs d'); nra.
  Qed.

  Lemma loop_pd : forall m st its en, c2 o < 1 -> bok st -> positive_definite n (bB st) ->
    bfgs_loop n errorOf gradOf update o stop m st = Ok (its, en) ->
    Forall (fun it => 0 <= i_alpha it /\ nonzero n (i_g it)) its ->
    Forall (fun it => positive_definite n (i_B it) /\ vdot n (i_g it) (i_p it) < 0) its /\ positive_definite n (bB en) /\
    secant_chain n gradOf its /\ (forall it t, its = it :: t -> i_from it = l_world (bl st) /\ i_B it = bB st).
  Proof.
    induction m as [|m IH]; intros st its en C2 Hb P H F; cbn [bfgs_loop] in H.
    { injection H as <- <-. repeat split; auto; discriminate. }
    destruct (bfgs_iteration _ _ _ _ _ _ _) as [[it nxt]| |] eqn:I; try discriminate. cbn [bind fst snd] in H.
    destruct (step _ _ _ Hb I) as (A1 & A2 & A3 & A4 & A5 & HB & Nx).
    assert (Bq : i_B it = bB st).
    { destruct HB as [?|[_ Z]]; auto. rewrite direction_slope in Z. pose proof (vdot_nonneg (bB st) (i_g it) P). lra. }
    assert (Pi : positive_definite n (i_B it)) by (rewrite Bq; auto).
    destruct nxt as [st1|].
    - destruct (bfgs_loop _ _ _ _ _ _ m st1) as [[its' en']| |] eqn:L; try discriminate. cbn [bind fst snd] in H. injection H as <- <-.
      inversion F as [|? ? (F1 & Fg) F2]; subst. destruct (Nx _ eq_refl) as (Hb1 & W1 & E & Sc).
      assert (Dd : vdot n (i_g it) (i_p it) < 0) by (rewrite A3; apply direction_descent; auto).
      set (s := vscale (i_alpha it) (i_p it)) in *. set (y := vsub (bg st1) (i_g it)) in *.
      assert (Ys : vdot n y s = i_alpha it * (vdot n (bg st1) (i_p it) - vdot n (i_g it) (i_p it))).
      { unfold s, y. rewrite vdot_scale_r, vdot_sub_l. reflexivity. }
      assert (An : i_alpha it <> 0).
      { intros Z. (* the gradient would be unchanged *)
        assert (Wq : i_to it = i_from it).
        { rewrite A4. unfold s. rewrite Z. destruct (add (i_p it)) as (Z0 & _). apply Z0. }
        destruct Hb1 as (_ & _ & G1 & G2). rewrite G2, G1, W1, Wq, <- A1 in Sc.
        unfold strong_curvature in Sc. rewrite Rabs_left in Sc by auto. nra. }
      assert (Yp : 0 < vdot n y s) by (rewrite Ys; apply curvature; auto).
      assert (P1 : positive_definite n (bB st1)) by (rewrite E; apply update_pd; auto).
      destruct (IH _ _ _ C2 Hb1 P1 L F2) as (G1 & G2 & G3 & G4).
      split; [constructor; auto|]. split; auto. split.
      + cbn [secant_chain]. destruct its' as [|b t]; auto. destruct (G4 b t eq_refl) as (K1 & K2).
        split; [congruence|]. split; auto. rewrite K2, E.
        destruct Hb1 as (_ & _ & Q1 & Q2). rewrite <- W1, <- Q1, <- Q2, <- A1. fold y. apply update_secant. apply Rgt_not_eq. exact Yp.
      + intros ? ? X. injection X as <- <-. auto.
    - injection H as <- <-. inversion F as [|? ? (F1 & Fg) F2]; subst. split; [constructor; [|constructor]|].
      + split; auto. rewrite A3. apply direction_descent; auto.
      + split; auto. split; [exact Logic.I|]. intros ? ? X. injection X as <- <-. auto.
  Qed.
End Run.
