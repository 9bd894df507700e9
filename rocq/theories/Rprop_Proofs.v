From Coq Require Import ZArith Reals List Bool Lia Lra.
From Flocq Require Import Core BinarySingleNaN.
From Verif Require Import Lib_Float Lib_FloatMul Rprop_Model Rprop_Spec.
Import ListNotations.

Lemma fopp_fopp : forall x, fopp (fopp x) = x.
Proof. intros. unfold fopp. apply Bopp_involutive. Qed.
Opaque fsub fadd fmul fdiv fz fl flt fle fabs fopp feq.

Lemma flt_fle_trans : forall x y z, flt x y = true -> fle y z = true -> is_finite x = true -> is_finite y = true -> is_finite z = true -> flt x z = true.
Proof.
  intros x y z A B Fx Fy Fz. apply flt_finite in A; auto. apply fle_finite in B; auto. apply flt_finite; auto. lra.
Qed.

Section C.
  Variable o : roptions.
  Hypothesis Sane : sane o.

  Lemma finite_between : forall a x b, is_finite a = true -> is_finite b = true -> fle a x = true -> fle x b = true -> is_finite x = true.
  Proof.
    intros a x b Fa Fb L U. destruct (finite_or x (fle_nan_l _ _ U)) as [|[->| ->]]; auto.
    - apply fle_inf_inv in U. subst. discriminate.
    - apply fle_ninf_inv in L. subst. discriminate.
  Qed.
  Lemma sane_min : flt f0 (minDelta o) = true /\ is_finite (minDelta o) = true /\ fle (minDelta o) (maxDelta o) = true /\
    flt f0 (etaMinus o) = true /\ fle (etaMinus o) (fz 1) = true /\ fle (fz 1) (etaPlus o) = true /\ is_finite (maxDelta o) = true.
  Proof.
    destruct Sane as (C & A & B & D & E & F). unfold check_rprop in C. rewrite !andb_true_iff in C. destruct C as ((((C1 & C2) & C3) & C4) & C5).
    apply flt_le in C5. repeat split; auto.
    apply (finite_between f0 _ (maxDelta o)); auto. apply flt_le; auto.
  Qed.

  Lemma within_finite : forall c, within o c -> is_finite (r_delta c) = true /\ flt f0 (r_delta c) = true.
  Proof.
    intros c (L & U). destruct sane_min as (M1 & M2 & M3 & _ & _ & _ & M4).
    assert (is_finite (r_delta c) = true) by (apply (finite_between (minDelta o) _ (maxDelta o)); auto).
    split; auto. apply (flt_fle_trans _ (minDelta o)); auto.
  Qed.

  (* what one coordinate remembers: the last step went against the remembered gradient with the full step size *)
  Definition cinv (c : rcoord) : Prop :=
    within o c /\ (flt f0 (r_prev c) = true -> r_dx c = fopp (r_delta c)) /\ (flt (r_prev c) f0 = true -> r_dx c = r_delta c).

  Lemma up_within : forall c, within o c -> fle (minDelta o) (dmin (fmul (r_delta c) (etaPlus o)) (maxDelta o)) = true /\
    fle (dmin (fmul (r_delta c) (etaPlus o)) (maxDelta o)) (maxDelta o) = true.
  Proof.
    intros c Wc. destruct sane_min as (M1 & M2 & M3 & _ & _ & M5 & M4). destruct (within_finite c Wc) as (F & P). destruct Wc as (L & U).
    pose proof (fmul_ge _ _ P M5) as G. assert (Nm : isnan (maxDelta o) = false) by (apply (fle_nan_r _ _ M3)).
    unfold dmin. destruct (flt (maxDelta o) _) eqn:Q.
    - split; auto. apply fle_refl; auto.
    - split; [apply (fle_trans _ _ _ L G)|]. apply flt_le_false; auto. apply (fle_nan_r _ _ G).
  Qed.
  Lemma down_within : forall c, within o c -> let d := dmax (fmul (r_delta c) (etaMinus o)) (minDelta o) in
    fle (minDelta o) d = true /\ fle d (r_delta c) = true /\ (d = fmul (r_delta c) (etaMinus o) \/ d = minDelta o).
  Proof.
    intros c Wc d. destruct sane_min as (M1 & M2 & M3 & E1 & E2 & _ & M4). destruct (within_finite c Wc) as (F & P). destruct Wc as (L & U).
    destruct (fmul_le _ _ P F E1 E2) as (G1 & G2). unfold d, dmax. destruct (flt (fmul _ _) _) eqn:Q.
    - repeat split; auto. apply fle_refl. apply (fle_nan_l _ _ L).
    - repeat split; auto. apply flt_le_false; auto; [apply (fle_nan_r _ _ G2)|apply (fle_nan_l _ _ L)].
  Qed.

  Lemma flt_asym : forall a b, flt a b = true -> flt b a = true -> False.
  Proof.
    Transparent flt. intros a b A B. unfold flt in *. rewrite Bcompare_swap in B. destruct (Bcompare a b) as [[]|]; discriminate. Opaque flt.
  Qed.

  Lemma against_pos : forall g d, is_finite d = true -> flt f0 g = true -> against g d = fopp d.
  Proof.
    intros g d F P. unfold against, sign. rewrite P. destruct (flt g f0) eqn:N; [exfalso; apply (flt_asym _ _ P N)|]. apply fmul_mone; auto.
  Qed.
  Lemma against_neg : forall g d, is_finite d = true -> flt g f0 = true -> against g d = d.
  Proof.
    intros g d F P. unfold against, sign. rewrite P. destruct (flt f0 g) eqn:N; [exfalso; apply (flt_asym _ _ P N)|]. apply fmul_one; auto.
  Qed.
  Lemma against_none : forall g d, is_finite d = true -> flt g f0 = false -> flt f0 g = false -> feq (against g d) f0 = true.
  Proof.
    intros g d F P Q. unfold against, sign. rewrite P, Q. destruct (fmul_zero d F) as (s & E). change (- (0 - 0))%Z with 0%Z. rewrite E. destruct s; reflexivity.
  Qed.

  Lemma not_both : forall c g, switchNo c g = true -> switchYes c g = true -> False.
  Proof. intros c g A B. apply (flt_asym _ _ A B). Qed.

  Definition new_delta (c : rcoord) (g : b64) : b64 :=
    if switchNo c g then dmin (fmul (r_delta c) (etaPlus o)) (maxDelta o)
    else if switchYes c g then dmax (fmul (r_delta c) (etaMinus o)) (minDelta o) else r_delta c.
  Lemma coord_delta : forall inc c g, r_delta (rprop_coord o inc c g) = new_delta c g.
  Proof. intros. unfold rprop_coord. fold (new_delta c g). destruct (method o), (switchYes c g); reflexivity. Qed.

  Lemma new_within : forall c g, within o c -> fle (minDelta o) (new_delta c g) = true /\ fle (new_delta c g) (maxDelta o) = true.
  Proof.
    intros c g Wc. unfold new_delta. destruct (switchNo c g); [apply up_within; auto|]. destruct (switchYes c g); [|exact Wc].
    destruct (down_within c Wc) as (A & B & _). split; auto. destruct Wc as (_ & U). apply (fle_trans _ _ _ B U).
  Qed.

  Definition is0 (x : b64) : Prop := feq x f0 = true.

  (* one coordinate of one iteration *)
  Lemma coord_step : forall inc c g, cinv c -> let c' := rprop_coord o inc c g in
    cinv c' /\
    (r_dx c' = r_delta c' \/ r_dx c' = fopp (r_delta c') \/ is0 (r_dx c') \/
     (switchYes c g = true /\ (r_dx c' = r_delta c \/ r_dx c' = fopp (r_delta c)))) /\
    (flt f0 g = true -> fle (r_dx c') f0 = true) /\ (flt g f0 = true -> fle f0 (r_dx c') = true) /\
    (flt f0 g = false -> flt g f0 = false -> is0 (r_dx c')) /\
    (switchYes c g = true -> fle (r_delta c') (r_delta c) = true /\
       (r_delta c' = fmul (r_delta c) (etaMinus o) \/ r_delta c' = minDelta o)).
  Proof.
    intros inc c g (Wc & I1 & I2) c'.
    assert (Dq : r_delta c' = new_delta c g) by apply coord_delta.
    pose proof (new_within c g Wc) as Wn.
    assert (W' : within o c') by (unfold within; rewrite Dq; exact Wn).
    destruct (within_finite _ Wc) as (F & P). destruct (within_finite _ W') as (F' & P').
    assert (Opp : forall x, flt f0 x = true -> is_finite x = true -> fle (fopp x) f0 = true /\ fle f0 x = true).
    { intros x Px Fx. assert (L := Px). apply flt_finite in Px; auto. change (val f0) with 0%R in Px.
      split; [|apply flt_le; auto]. apply fle_finite; auto; [change (is_finite (Bopp x) = true); rewrite is_finite_Bopp; auto|].
      change (val (fopp x)) with (B2R (Bopp x)). rewrite B2R_Bopp. change (val f0) with 0%R. unfold val in Px. lra. }
    destruct (Opp _ P F) as (O1 & O2). destruct (Opp _ P' F') as (O1' & O2').
    assert (Z0 : fle f0 f0 = true) by (vm_compute; reflexivity).
    (* the four ways to choose the step *)
    assert (Sh : switchYes c g = true -> fle (r_delta c') (r_delta c) = true /\
       (r_delta c' = fmul (r_delta c) (etaMinus o) \/ r_delta c' = minDelta o)).
    { intros Y. rewrite Dq. unfold new_delta. rewrite Y. destruct (switchNo c g) eqn:N; [exfalso; apply (not_both _ _ N Y)|].
      destruct (down_within c Wc) as (A & B & D). auto. }
    assert (Cases : (r_dx c' = against g (r_delta c') /\ r_prev c' = g) \/
      (switchYes c g = true /\ r_prev c' = f0 /\ (r_dx c' = f0 \/ r_dx c' = fopp (r_dx c)))).
    { unfold c', rprop_coord. fold (new_delta c g). destruct (method o) eqn:Mo, (switchYes c g) eqn:Y; cbn [r_dx r_prev r_delta]; auto.
      destruct inc; auto. }
    destruct Cases as [(Ex & Ep)|(Y & Ep & Ex)].
    - destruct (flt f0 g) eqn:G1.
      + rewrite (against_pos _ _ F' G1) in Ex. destruct (flt g f0) eqn:G2; [exfalso; apply (flt_asym _ _ G1 G2)|].
        unfold cinv. rewrite Ep, Ex. repeat split; auto; try apply W'; try discriminate; try congruence; try (apply Sh; auto).
      + destruct (flt g f0) eqn:G2.
        * rewrite (against_neg _ _ F' G2) in Ex. unfold cinv. rewrite Ep, Ex. repeat split; auto; try apply W'; try discriminate; try congruence; try (apply Sh; auto).
        * pose proof (against_none _ _ F' G2 G1) as A0. rewrite <- Ex in A0. unfold cinv. rewrite Ep.
          repeat split; auto; try apply W'; try discriminate; try congruence; try (apply Sh; auto).
    - assert (NP : flt f0 f0 = false) by (vm_compute; reflexivity).
      assert (CI : cinv c') by (unfold cinv; rewrite Ep, NP; repeat split; try apply W'; discriminate).
      split; auto. pose proof Y as Y2. apply sign_of_neg_product in Y2.
      destruct Ex as [Ex|Ex].
      + rewrite Ex. repeat split; auto; try (apply Sh; auto).
      + destruct Y2 as [(A & B)|(A & B)].
        * rewrite (I2 A) in Ex. rewrite Ex. repeat split; auto; try (apply Sh; auto); try congruence.
          -- right. right. right. auto.
          -- intros Q. exfalso. apply (flt_asym _ _ B Q).
        * rewrite (I1 A), fopp_fopp in Ex. rewrite Ex. repeat split; auto; try (apply Sh; auto); try congruence.
          -- right. right. right. auto.
          -- intros Q. exfalso. apply (flt_asym _ _ B Q).
  Qed.

  Lemma reset_inv : forall W (w : W) d, cinv (coords (rprop_reset o w) d).
  Proof.
    intros W w d. cbn [rprop_reset coords]. unfold cinv, within. cbn [r_delta r_prev r_dx].
    destruct Sane as (_ & A & B & _). assert (NP : flt f0 f0 = false) by (vm_compute; reflexivity). rewrite NP. repeat split; auto; discriminate.
  Qed.

  Section Run.
    Context {W : Type}.
    Variables (gradientOf : W -> nat -> b64) (errorOf : W -> b64) (apply : W -> (nat -> b64) -> W).
    Variables (stop_gradient : (nat -> b64) -> bool) (stop_dx : (nat -> b64) -> bool) (stop_error : b64 -> b64 -> bool).

    Lemma run_inv : forall m s, (forall d, cinv (coords s d)) ->
      Forall (fun p => (forall d, cinv (coords (fst p) d)) /\ snd p = rprop_step gradientOf errorOf apply o (fst p))
        (rprop_loop gradientOf errorOf apply stop_gradient stop_dx stop_error o m s).
    Proof.
      induction m as [|m IH]; intros s I; cbn [rprop_loop]; auto.
      destruct (stop_gradient _); auto. cbv zeta.
      assert (I1 : forall d, cinv (coords (rprop_step gradientOf errorOf apply o s) d)).
      { intros d. unfold rprop_step. cbn [coords]. apply coord_step; auto. }
      destruct (stop_dx _); [constructor; auto|]. destruct (match method o with IRPROP_PLUS => _ | _ => false end); constructor; auto.
    Qed.

    Lemma run_step : forall m w, Forall (fun p : rstate W * rstate W =>
        let (s, s') := p in forall d, let c := coords s d in let c' := coords s' d in let g := gradientOf (rworld s) d in
        within o c /\ within o c' /\
        (r_dx c' = r_delta c' \/ r_dx c' = fopp (r_delta c') \/ is0 (r_dx c') \/
         (switchYes c g = true /\ (r_dx c' = r_delta c \/ r_dx c' = fopp (r_delta c)))) /\
        (flt f0 g = true -> fle (r_dx c') f0 = true) /\ (flt g f0 = true -> fle f0 (r_dx c') = true) /\
        (flt f0 g = false -> flt g f0 = false -> is0 (r_dx c')) /\
        (switchYes c g = true -> fle (r_delta c') (r_delta c) = true /\
           (r_delta c' = fmul (r_delta c) (etaMinus o) \/ r_delta c' = minDelta o)))
      (rprop_loop gradientOf errorOf apply stop_gradient stop_dx stop_error o m (rprop_reset o w)).
    Proof.
      intros m w. eapply Forall_impl; [|apply run_inv; apply reset_inv]. intros (s & s') (I & E) d. cbn [fst snd] in *. subst s'.
      unfold rprop_step. cbn [coords]. cbv zeta.
      destruct (coord_step (match method o with IRPROP_PLUS => true | _ => false end && flt f0 (fsub (errorOf (rworld s)) (prev_error s))) _ (gradientOf (rworld s) d) (I d)) as (A & B).
      split; [apply I|]. split; [apply A|exact B].
    Qed.

    Lemma run_moves : forall m s, Forall (fun p : rstate W * rstate W =>
        rworld (snd p) = apply (rworld (fst p)) (fun d => r_dx (coords (snd p) d)))
      (rprop_loop gradientOf errorOf apply stop_gradient stop_dx stop_error o m s).
    Proof.
      induction m as [|m IH]; intros s; cbn [rprop_loop]; auto. destruct (stop_gradient _); auto. cbv zeta.
      assert (E : rworld (rprop_step gradientOf errorOf apply o s) = apply (rworld s) (fun d => r_dx (coords (rprop_step gradientOf errorOf apply o s) d))) by reflexivity.
      destruct (stop_dx _); [constructor; auto|]. destruct (match method o with IRPROP_PLUS => _ | _ => false end); constructor; auto.
    Qed.
  End Run.

End C.
