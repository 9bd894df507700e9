From Coq Require Import ZArith List Bool Lia Reals Lra.
From Flocq Require Import Core BinarySingleNaN.
From Verif Require Import Lib_Res Lib_Float Optimizer2_Model Optimizer1_Model Optimizer1_Spec.
Import ListNotations.
Open Scope Z_scope.

(** a quotient of a negative and a positive finite number is not positive *)
Lemma fdiv_neg : forall x g, flt x f0 = true -> is_finite g = true -> flt f0 g = true -> fle (fdiv x g) f0 = true.
Proof.
  intros x g Hx Fg Hg.
  assert (0 < val g)%R as Pg by (apply flt_finite in Hg; auto).
  destruct (is_finite x) eqn:Fx.
  - apply flt_finite in Hx; auto. change (val f0) with 0%R in Hx.
    unfold fdiv.
    assert (B2R g <> 0%R) as NZ by (unfold val in Pg; lra).
    pose proof (Bdiv_correct 53 1024 prec53 emax1024 mode_NE x g NZ) as C.
    destruct (Rlt_bool_spec (Rabs (round radix2 (SpecFloat.fexp 53 1024) (round_mode mode_NE) (B2R x / B2R g))) (bpow radix2 1024)) as [L|L].
    + destruct C as (V & F & S). apply fle_finite; [rewrite F; auto|auto|]. unfold val. rewrite V. change (B2R f0) with 0%R.
      rewrite <- (round_0 radix2 (SpecFloat.fexp 53 1024) (round_mode mode_NE)). apply round_le; try typeclasses eauto.
      unfold val in *. apply Rlt_le. unfold Rdiv. assert (0 < / B2R g)%R by (apply Rinv_0_lt_compat; lra). nra.
    + assert (Bsign x = true) as Sx. { destruct (Bsign x) eqn:S; auto. pose proof (Bsign_val_pos x Fx S). lra. }
      assert (Bsign g = false) as Sg. { destruct (Bsign g) eqn:S; auto. pose proof (Bsign_val g Fg S). lra. }
      rewrite Sx, Sg in C. cbn in C.
      assert (Bdiv mode_NE x g = B754_infinity true) as I by (apply B2SF_inj; rewrite C; reflexivity).
      rewrite I. reflexivity.
  - destruct x as [[]|[]| |[] ? ? ?]; try discriminate. destruct g as [[]|[]| |[] ? ? ?]; try discriminate; reflexivity.
Qed.

Lemma kept_lower : forall p c g, isnan p = false -> isnan c = false -> is_finite g = true -> flt f0 g = true ->
  fle (fdiv (fsub p c) g) f0 = false -> fle c p = true.
Proof.
  intros p c g Np Nc Fg Hg H. apply flt_le_false; auto. destruct (flt p c) eqn:E; auto.
  rewrite <- fsub_lt0 in E by auto. rewrite (fdiv_neg _ _ E Fg Hg) in H. discriminate.
Qed.

Opaque fsub fadd fmul fdiv fz fl flt fle fabs fopp feq.
Section P.
  Context {W : Type} (E : env1 W) (o : options1).
  Notation loop1 := (loop1 W).
  Notation iteration1 := (iteration1 E o).

  Lemma build1_spec : forall l l1, build1 E o l = Ok l1 ->
    jJ l1 = jJ l /\ jp l1 = jp l /\ mu l1 = mu l /\ dX l1 = dX l /\ dJ l1 = dJ l /\ reg l1 = reg l /\ iters l1 = iters l /\ fails l1 = fails l /\
    lgl l1 = lgl l /\ (wld l1 = wld l \/ wld l1 = v_build E (wld l)).
  Proof.
    intros l l1 H. unfold build1 in H. destruct (reg l) eqn:R; [assert (l = l1) as <- by congruence; repeat split; auto|].
    cbv zeta in H. destruct (setInitialLambda o (v_diag E (v_build E (wld l))) (lam l)); try discriminate. cbn [bind] in H.
    assert (forall a b : loop1, Ok a = Ok b -> a = b) as inj by congruence. apply inj in H. subst l1. cbn. repeat split; auto.
  Qed.

  Lemma try_spec : forall l d w c w', v_apply E (wld l) = (d, w) -> v_eval E (v_callback E DESIGN_VARIABLES_UPDATED w) = (c, w') ->
    let l' := try_step E l in
    jJ l' = c /\ jp l' = jp l /\ lam l' = lam l /\ iters l' = iters l /\ fails l' = fails l /\ wld l' = w' /\ lgl l' = OEval c :: OApply :: lgl l /\
    dX l' = d /\ dJ l' = fsub (jp l) c.
  Proof. intros l d w c w' A V. unfold try_step, evaluate1. rewrite A. cbn. rewrite V. cbn. repeat split. Qed.

  Lemma regress_spec : forall l, let l' := regress E l in
    jJ l' = jJ l /\ jp l' = jp l /\ iters l' = iters l /\ fails l' = fails l + 1 /\ wld l' = v_revert E (wld l) /\ lgl l' = ORevert :: lgl l.
  Proof. intros. repeat split. Qed.
  Lemma keep_spec : forall rho l, let l' := keep E o rho l in
    jJ l' = jJ l /\ jp l' = jp l /\ iters l' = iters l /\ fails l' = fails l /\ wld l' = wld l /\ lgl l' = lgl l.
  Proof. intros. unfold l', keep. destruct (new_lambda E o rho (lam l) (mu l)). repeat split. Qed.
  Lemma count_spec : forall l : loop1, let l' := count1 l in
    jJ l' = jJ l /\ jp l' = lower (jJ l) (jp l) /\ iters l' = iters l + 1 /\ fails l' = fails l /\ wld l' = wld l /\ lgl l' = lgl l.
  Proof. intros. repeat split. Qed.

  (** one pass *)
  Lemma iteration1_cases : forall l l', iteration1 l = Ok l' -> iters l' = iters l + 1 /\
    exists wb x ok ws, (wb = wld l \/ wb = v_build E (wld l)) /\ v_solve E wb x = (ok, ws) /\
    if ok then exists d wa c we g, v_apply E ws = (d, wa) /\ v_eval E (v_callback E DESIGN_VARIABLES_UPDATED wa) = (c, we) /\
               jJ l' = c /\ jp l' = lower c (jp l) /\
               if doLM o && fle (fdiv (fsub (jp l) c) g) f0
               then wld l' = v_revert E we /\ lgl l' = ORevert :: OEval c :: OApply :: OSolve true :: lgl l /\ fails l' = fails l + 1
               else wld l' = we /\ lgl l' = OEval c :: OApply :: OSolve true :: lgl l /\ fails l' = fails l
    else jJ l' = jJ l /\ jp l' = lower (jJ l) (jp l) /\ fails l' = fails l + 1 /\ wld l' = v_revert E ws /\ lgl l' = ORevert :: OSolve false :: lgl l.
  Proof.
    intros l l' H. unfold Optimizer1_Model.iteration1 in H.
    destruct (build1 E o l) as [l1| |] eqn:B; try discriminate. cbn [bind] in H.
    apply build1_spec in B. destruct B as (b1 & b2 & b3 & b4 & b5 & b6 & b7 & b8 & b9 & b10).
    destruct (v_solve E (wld l1) (lam l1)) as [ok ws] eqn:S. cbv zeta in H.
    match type of H with Ok (count1 (if ok then judge1 E o (try_step E ?x) else _)) = _ => set (l2 := x) in H end.
    assert (forall a b : loop1, Ok a = Ok b -> a = b) as inj by congruence. apply inj in H. clear inj.
    match type of H with count1 ?x = _ => pose proof (count_spec x) as Q end. cbv zeta in Q. rewrite H in Q. destruct Q as (c1 & c2 & c3 & c4 & c5 & c6).
    split.
    - rewrite c3. f_equal. destruct ok; [|cbn; exact b7]. unfold judge1.
      destruct (v_apply E ws) as [d wa] eqn:A. destruct (v_eval E (v_callback E DESIGN_VARIABLES_UPDATED wa)) as [c we] eqn:V.
      pose proof (try_spec l2 d wa c we A V) as T. cbv zeta in T. destruct T as (t1 & t2 & t3 & t4 & t5 & t6 & t7 & _).
      cbv zeta. destruct (doLM o); [|rewrite t4; exact b7]. destruct (fle (getLmRho1 E (try_step E l2)) f0).
      + rewrite (proj1 (proj2 (proj2 (regress_spec (try_step E l2))))), t4. exact b7.
      + rewrite (proj1 (proj2 (proj2 (keep_spec (getLmRho1 E (try_step E l2)) (try_step E l2))))), t4. exact b7.
    - exists (wld l1), (lam l1), ok, ws. split; [exact b10|]. split; [exact S|]. destruct ok.
      + destruct (v_apply E ws) as [d wa] eqn:A. destruct (v_eval E (v_callback E DESIGN_VARIABLES_UPDATED wa)) as [c we] eqn:V.
        pose proof (try_spec l2 d wa c we A V) as T. cbv zeta in T. destruct T as (t1 & t2 & t3 & t4 & t5 & t6 & t7 & _).
        set (l3 := try_step E l2) in *.
        exists d, wa, c, we, (v_gain E (wld l3) (lam l3)). split; [reflexivity|]. split; [exact V|].
        assert (jp l2 = jp l) as P2 by exact b2. assert (lgl l2 = OSolve true :: lgl l) as L2 by (cbn; rewrite b9; reflexivity).
        assert (fails l2 = fails l) as F2 by exact b8.
        assert (getLmRho1 E l3 = fdiv (fsub (jp l) c) (v_gain E (wld l3) (lam l3))) as G by (unfold getLmRho1; rewrite t1, t2, P2; reflexivity).
        unfold judge1 in c1, c2, c4, c5, c6. cbv zeta in c1, c2, c4, c5, c6. rewrite G in *.
        destruct (doLM o); cbn [andb].
        * destruct (fle (fdiv (fsub (jp l) c) (v_gain E (wld l3) (lam l3))) f0).
          -- destruct (regress_spec l3) as (r1 & r2 & r3 & r4 & r5 & r6). split; [congruence|]. split; [congruence|]. split; [congruence|]. split; congruence.
          -- match type of c1 with _ = jJ (keep _ _ ?r _) => destruct (keep_spec r l3) as (r1 & r2 & r3 & r4 & r5 & r6) end.
             split; [congruence|]. split; [congruence|]. split; [congruence|]. split; congruence.
        * split; [congruence|]. split; [congruence|]. split; [congruence|]. split; congruence.
      + destruct (regress_spec l2) as (r1 & r2 & r3 & r4 & r5 & r6).
        assert (lgl l2 = OSolve false :: lgl l) as L2 by (cbn; rewrite b9; reflexivity).
        assert (jJ l2 = jJ l) by exact b1. assert (jp l2 = jp l) by exact b2. assert (fails l2 = fails l) by exact b8. assert (wld l2 = ws) by reflexivity.
        split; [congruence|]. split; [congruence|]. split; [congruence|]. split; congruence.
  Qed.

  Lemma iterate1_ind : forall (P : loop1 -> Prop),
    (forall l l', P l -> continue1 o l = true -> iteration1 l = Ok l' -> P l') ->
    forall f l l', P l -> iterate1 E o f l = Some (Ok l') -> P l' /\ continue1 o l' = false.
  Proof.
    intros P Hs. induction f; intros l l' Hl H; cbn in H.
    - destruct (continue1 o l) eqn:C; try discriminate. injection H as <-. auto.
    - destruct (continue1 o l) eqn:C; [|injection H as <-; auto].
      destruct (iteration1 l) eqn:I; try discriminate. apply IHf in H; auto. eapply Hs; eauto.
  Qed.

  Lemma iterate1_total : forall f l, (Z.to_nat (maxIter o - iters l) <= f)%nat -> iterate1 E o f l <> None.
  Proof.
    induction f; intros l H; cbn.
    - destruct (continue1 o l) eqn:C; try discriminate. unfold continue1 in C. apply andb_true_iff in C as [C _]. apply andb_true_iff in C as [C _].
      apply Z.ltb_lt in C. lia.
    - destruct (continue1 o l) eqn:C; try discriminate. destruct (iteration1 l) eqn:I; try discriminate. apply IHf.
      apply iteration1_cases in I. destruct I as [I _]. rewrite I. lia.
  Qed.
  Theorem terminates1 : forall J w, optimize1 E o J w <> None.
  Proof.
    intros J w. unfold optimize1. cbv zeta. pose proof (iterate1_total (Z.to_nat (maxIter o)) (start1 E o J w)) as T.
    assert (iters (start1 E o J w) = 0) as Z by reflexivity. rewrite Z in T.
    destruct (iterate1 E o (Z.to_nat (maxIter o)) (start1 E o J w)) as [[| |]|]; try discriminate. exfalso. apply T; auto. lia.
  Qed.

  (** list facts *)
  Lemma last_app : forall os J t, last_cost J (os ++ t) = last_cost (last_cost J os) t.
  Proof. induction os as [|[]]; cbn; auto. Qed.
  Lemma lowest_app : forall os J p t, lowest J p (os ++ t) = lowest (last_cost J os) (lowest J p os) t.
  Proof. induction os as [|[]]; cbn; auto. Qed.
  Lemma judged1_app : forall lm os J p t, judged1 lm J p (os ++ t) <-> judged1 lm J p os /\ judged1 lm (last_cost J os) (lowest J p os) t.
  Proof. induction os as [|[]]; intros; cbn; try rewrite IHos; tauto. Qed.
  Lemma failures1_snoc : forall os x, failures1 (os ++ [x]) = failures1 os + match x with Kept _ _ => 0 | _ => 1 end.
  Proof. intros. unfold failures1. rewrite filter_app, app_length. destruct x; cbn; lia. Qed.

  (** the walk, with the saved value made explicit *)
  Fixpoint walk1s {V} (step : V -> V -> Prop) (cost : V -> b64) (v s : V) (os : list outcome1) (v' s' : V) : Prop :=
    match os with
    | [] => v' = v /\ s' = s
    | Failed :: t => walk1s step cost s s t v' s'
    | Kept c _ :: t => exists u, step v u /\ c = cost u /\ walk1s step cost u v t v' s'
    | Undone c _ :: t => (exists u, step v u /\ c = cost u) /\ walk1s step cost v v t v' s'
    end.
  Lemma walk1s_walk1 : forall V (step : V -> V -> Prop) cost os v s v' s', walk1s step cost v s os v' s' -> walk1 step cost v s os v'.
  Proof.
    induction os as [|[]]; intros v s v' s' H; cbn in *.
    - tauto.
    - eauto.
    - destruct H as (u & A & B & C). exists u. eauto.
    - destruct H as (A & C). split; eauto.
  Qed.
  Lemma walk1s_app : forall V (step : V -> V -> Prop) cost os v s v' s' t v2 s2, walk1s step cost v s os v' s' -> walk1s step cost v' s' t v2 s2 ->
    walk1s step cost v s (os ++ t) v2 s2.
  Proof.
    induction os as [|[]]; intros v s v' s' t v2 s2 H H2; cbn in *.
    - destruct H; subst; auto.
    - eauto.
    - destruct H as (u & A & B & C). exists u. split; auto. split; auto. eauto.
    - destruct H as (A & C). split; eauto.
  Qed.

  Section Hist.
    Context {V : Type} (val saved : W -> V) (cost : V -> b64) (F : faithful1 E val saved cost).
    Variables (v0 s0 : V) (J0 : b64).

    Definition hist (l : loop1) : Prop := exists os,
      rev (lgl l) = OEval J0 :: flat_map actions1 os /\ iters l = Z.of_nat (length os) /\ fails l = failures1 os /\
      jJ l = last_cost J0 os /\ jp l = lowest J0 J0 os /\ judged1 (doLM o) J0 J0 os /\
      walk1s (moves1 E val) cost v0 s0 os (val (wld l)) (saved (wld l)).

    Lemma hist_step : forall l l', hist l -> iteration1 l = Ok l' -> hist l'.
    Proof.
      intros l l' (os & h1 & h2 & h3 & h4 & h5 & h6 & h7) I.
      apply iteration1_cases in I. destruct I as (I & wb & x & ok & ws & Hb & S & R).
      assert (val wb = val (wld l) /\ saved wb = saved (wld l)) as [Vb Sb].
      { destruct Hb as [-> | ->]; [auto|]. apply (g_build E val saved cost F). }
      assert (val ws = val (wld l) /\ saved ws = saved (wld l)) as [Vs Ss].
      { pose proof (g_solve E val saved cost F wb x) as Q. rewrite S in Q. cbn in Q. split; [rewrite (proj1 Q); auto|rewrite (proj2 Q); auto]. }
      destruct ok.
      - destruct R as (d & wa & c & we & g & A & V_ & RJ & Rp & R).
        pose proof (g_apply E val saved cost F ws) as Qa. rewrite A in Qa. cbn [snd] in Qa.
        destruct (g_callback E val saved cost F DESIGN_VARIABLES_UPDATED wa) as [Qc Qd].
        destruct (g_eval E val saved cost F (v_callback E DESIGN_VARIABLES_UPDATED wa)) as (Qe & Qf & Qg). rewrite V_ in Qe, Qf, Qg. cbn [fst snd] in Qe, Qf, Qg.
        assert (moves1 E val (val (wld l)) (val wa)) as M by (exists ws; rewrite A; split; auto).
        assert (c = cost (val wa)) as Cc by (rewrite Qe, Qc; reflexivity).
        destruct (doLM o && fle (fdiv (fsub (jp l) c) g) f0) eqn:Jd.
        + exists (os ++ [Undone c g]). destruct R as (R1 & R2 & R3).
          split; [rewrite R2; cbn [rev]; rewrite h1, flat_map_app; cbn; rewrite <- !app_assoc; reflexivity|].
          split; [rewrite app_length, I, h2; cbn [length]; lia|].
          split; [rewrite failures1_snoc, R3, h3; reflexivity|].
          split; [rewrite last_app; cbn; exact RJ|].
          split; [rewrite lowest_app; cbn; rewrite Rp, h5; reflexivity|].
          split; [apply judged1_app; split; [exact h6|]; cbn; rewrite <- h5; auto|].
          eapply walk1s_app; [exact h7|]. cbn. destruct (g_revert E val saved cost F we) as [Qr Qs].
          split; [exists (val wa); auto|]. rewrite R1, Qr, Qs, Qg, Qd, Qa, Vs. auto.
        + exists (os ++ [Kept c g]). destruct R as (R1 & R2 & R3).
          split; [rewrite R2; cbn [rev]; rewrite h1, flat_map_app; cbn; rewrite <- !app_assoc; reflexivity|].
          split; [rewrite app_length, I, h2; cbn [length]; lia|].
          split; [rewrite failures1_snoc, R3, h3; cbn; lia|].
          split; [rewrite last_app; cbn; exact RJ|].
          split; [rewrite lowest_app; cbn; rewrite Rp, h5; reflexivity|].
          split; [apply judged1_app; split; [exact h6|]; cbn; rewrite <- h5; auto|].
          eapply walk1s_app; [exact h7|]. cbn. exists (val wa). split; [exact M|]. split; [exact Cc|]. rewrite R1, Qf, Qg, Qc, Qd, Qa, Vs. auto.
      - destruct R as (R1 & R2 & R3 & R4 & R5). exists (os ++ [Failed]).
        split; [rewrite R5; cbn [rev]; rewrite h1, flat_map_app; cbn; rewrite <- !app_assoc; reflexivity|].
        split; [rewrite app_length, I, h2; cbn [length]; lia|].
        split; [rewrite failures1_snoc, R3, h3; reflexivity|].
        split; [rewrite last_app; cbn; congruence|].
        split; [rewrite lowest_app; cbn; rewrite R2, h4, h5; reflexivity|].
        split; [apply judged1_app; split; [exact h6|]; cbn; auto|].
        eapply walk1s_app; [exact h7|]. cbn. destruct (g_revert E val saved cost F ws) as [Qr Qs]. rewrite R4, Qr, Qs, Ss. auto.
    Qed.
  End Hist.

  Section Top.
    Context {V : Type} (val saved : W -> V) (cost : V -> b64) (F : faithful1 E val saved cost).

    Lemma start_hist : forall J w, hist val saved cost (val w) (saved w) (cost (val w)) (start1 E o J w) /\ jJ (start1 E o J w) = cost (val w).
    Proof.
      intros J w. unfold start1, evaluate1. cbn [wld]. destruct (v_eval E w) as [e w1] eqn:V_.
      destruct (g_eval E val saved cost F w) as (Qe & Qf & Qg). rewrite V_ in *. cbn [fst snd] in *.
      destruct (g_callback E val saved cost F OPTIMIZATION_INITIALIZED w1) as [Qc Qd].
      split; [|cbn; auto]. exists []. cbn. rewrite Qc, Qd, Qf, Qg, Qe. repeat split; auto.
    Qed.

    Theorem history1 : forall J w r l, optimize1 E o J w = Some (Ok (r, l)) -> exists os,
      rev (lgl l) = OEval (rJStart r) :: flat_map actions1 os /\
      rIterations r = Z.of_nat (length os) /\ rIterations r <= Z.max 0 (maxIter o) /\ rFailed r = failures1 os /\
      rJStart r = cost (val w) /\ rJFinal r = last_cost (rJStart r) os /\
      judged1 (doLM o) (rJStart r) (rJStart r) os /\
      walk1 (moves1 E val) cost (val w) (saved w) os (val (wld l)).
    Proof.
      intros J w r l H. unfold optimize1 in H. cbv zeta in H.
      destruct (iterate1 E o (Z.to_nat (maxIter o)) (start1 E o J w)) as [[l'| |]|] eqn:L; try discriminate.
      assert (forall a b c d : _, Some (Ok (a : srv, b : loop1)) = Some (Ok (c, d)) -> a = c /\ b = d) as inj by (intros; split; congruence).
      apply inj in H. destruct H as [<- <-]. clear inj.
      destruct (start_hist J w) as [SH SJ].
      assert (hist val saved cost (val w) (saved w) (cost (val w)) l' /\ iters l' <= Z.max 0 (maxIter o)) as [(os & h1 & h2 & h3 & h4 & h5 & h6 & h7) It].
      { refine (proj1 (iterate1_ind (fun x => hist val saved cost (val w) (saved w) (cost (val w)) x /\ iters x <= Z.max 0 (maxIter o)) _ _ _ _ _ L)).
        - intros a b [Ha Hi] C I. split; [eapply hist_step; eauto|]. apply iteration1_cases in I. destruct I as [I _].
          unfold continue1 in C. apply andb_true_iff in C as [C _]. apply andb_true_iff in C as [C _]. apply Z.ltb_lt in C. rewrite I. lia.
        - split; auto. change (iters (start1 E o J w)) with 0. lia. }
      exists os. unfold report1. cbn [rJStart rJFinal rIterations rFailed]. rewrite SJ.
      split; [exact h1|]. split; [exact h2|]. split; [exact It|]. split; [exact h3|]. split; [reflexivity|]. split; [exact h4|]. split; [exact h6|].
      eapply walk1s_walk1; exact h7.
    Qed.
  End Top.

  (** the walk of a regular history ends in the kept state of least cost *)
  Lemma isnan_lower : forall c p, isnan c = false -> isnan p = false -> isnan (lower c p) = false.
  Proof. intros c p A B. unfold lower. destruct (flt c p); auto. Qed.
  Lemma lower_le : forall c p q, isnan c = false -> isnan p = false -> fle p q = true -> fle c q = true -> fle (lower c p) q = true.
  Proof. intros c p q A B C. unfold lower. destruct (flt c p); auto. Qed.

  Lemma lower_le_l : forall c p, isnan c = false -> isnan p = false -> fle (lower c p) c = true.
  Proof. intros c p Nc Np. unfold lower. destruct (flt c p) eqn:L; [apply fle_refl; auto|apply flt_le_false; auto]. Qed.
  Lemma lower_le_r : forall c p, isnan c = false -> isnan p = false -> fle (lower c p) p = true.
  Proof. intros c p Nc Np. unfold lower. destruct (flt c p) eqn:L; [apply flt_le; auto|apply fle_refl; auto]. Qed.

  Lemma best_walk : forall V (step : V -> V -> Prop) cost os (v s v' : V) J p,
    regular J os -> isnan p = false -> isnan (cost v) = false -> fle p (cost v) = true -> judged1 true J p os -> walk1 step cost v s os v' ->
    fle (cost v') (cost v) = true /\ (forall c g, In (Kept c g) os -> fle (cost v') c = true) /\
    (cost v' = cost v \/ exists g, In (Kept (cost v') g) os).
  Proof.
    induction os as [|x os IH]; intros v s v' J p Rg Np Nv Hp Hj Hw.
    - cbn in Hw. subst. split; [apply fle_refl; auto|]. split; [intros c g []|auto].
    - destruct Rg as [NJ Rg]. pose proof (Rg x (or_introl eq_refl)) as Rx.
      destruct x as [|c g|c g]; [contradiction| |]; destruct Rx as (Nc & Fg & Pg).
      + cbn in Hj. destruct Hj as [Hj Hj2]. cbn in Hw. destruct Hw as (u & St & Cu & Hw).
        pose proof (kept_lower p c g Np Nc Fg Pg Hj) as Lc. subst c.
        assert (regular (cost u) os) as Ru by (split; auto; intros y Hy; apply Rg; right; auto).
        destruct (IH u v v' (cost u) (lower (cost u) p) Ru) as (I1 & I2 & I3); auto.
        * apply isnan_lower; auto.
        * apply lower_le_l; auto.
        * split; [eapply fle_trans; [exact I1|]; eapply fle_trans; eauto|]. split.
          -- intros c g' [Q|Q]; [injection Q as <- <-; auto|eauto].
          -- destruct I3 as [I3|[g' I3]]; right; [exists g; left; rewrite I3; reflexivity|exists g'; right; auto].
      + cbn in Hj. destruct Hj as [Hj Hj2]. cbn in Hw. destruct Hw as (_ & Hw).
        assert (regular c os) as Ru by (split; auto; intros y Hy; apply Rg; right; auto).
        destruct (IH v v v' c (lower c p) Ru) as (I1 & I2 & I3); auto.
        * apply isnan_lower; auto.
        * eapply fle_trans; [apply lower_le_r; auto|]. exact Hp.
        * split; auto. split; [intros c' g' [Q|Q]; [discriminate|eauto]|]. destruct I3 as [I3|[g' I3]]; [auto|right; exists g'; right; auto].
  Qed.

  (** the reported cost is that of the state when no solve failed and the last step was kept *)
  Lemma reported_walk : forall V (step : V -> V -> Prop) cost os (v s v' : V) J, J = cost v ->
    ~ In Failed os -> (forall c g, last os Failed <> Undone c g) -> walk1 step cost v s os v' -> last_cost J os = cost v'.
  Proof.
    induction os as [|x os IH]; intros v s v' J HJ Nf Hl Hw.
    - cbn in *. congruence.
    - destruct x as [|c g|c g]; [exfalso; apply Nf; left; auto| |].
      + cbn in *. destruct Hw as (u & St & Cu & Hw). eapply IH; eauto. destruct os; [intros ? ? ?; discriminate|auto].
      + destruct os as [|y os]; [exfalso; exact (Hl c g eq_refl)|]. cbn in Hw. destruct Hw as (_ & Hw).
        (* the reported cost after an undone step is overwritten by the next evaluation *)
        destruct y as [|c2 g2|c2 g2]; [exfalso; apply Nf; right; left; auto| |].
        * change (last_cost J (Undone c g :: Kept c2 g2 :: os)) with (last_cost J (Kept c2 g2 :: os)).
          eapply (IH v v v' J HJ); [intros Q; apply Nf; right; auto|exact Hl|exact Hw].
        * change (last_cost J (Undone c g :: Undone c2 g2 :: os)) with (last_cost J (Undone c2 g2 :: os)).
          eapply (IH v v v' J HJ); [intros Q; apply Nf; right; auto|exact Hl|exact Hw].
  Qed.
End P.

Theorem best_state1 : forall W (E : env1 W) o V (val saved : W -> V) cost, faithful1 E val saved cost ->
  forall J w r l, optimize1 E o J w = Some (Ok (r, l)) -> exists os,
    rev (lgl l) = OEval (rJStart r) :: flat_map actions1 os /\
    walk1 (moves1 E val) cost (val w) (saved w) os (val (wld l)) /\
    (doLM o = true -> regular (rJStart r) os ->
      fle (cost (val (wld l))) (rJStart r) = true /\
      (forall c g, In (Kept c g) os -> fle (cost (val (wld l))) c = true) /\
      (cost (val (wld l)) = rJStart r \/ exists g, In (Kept (cost (val (wld l))) g) os)) /\
    (~ In Failed os -> (forall c g, last os Failed <> Undone c g) -> rJFinal r = cost (val (wld l))).
Proof.
  intros W E o V val saved cost F J w r l H.
  destruct (history1 E o val saved cost F J w r l H) as (os & h1 & h2 & h3 & h4 & h5 & h6 & h7 & h8).
  exists os. split; [exact h1|]. split; [exact h8|]. split.
  - intros Lm Rg. rewrite Lm in h7. rewrite h5 in *. destruct Rg as [NJ Rg].
    eapply best_walk; try exact h8; try exact h7; auto; [split; auto|apply fle_refl; auto].
  - intros Nf Hl. rewrite h6. eapply reported_walk; eauto.
Qed.
(** the initial damping with one scalar design variable *)
Lemma lambda_one : forall o (H : Z -> Z -> b64), fle (lambdaScale o) f0 = false -> fgt (fabs (H 0 0)%Z) f0 = true ->
  setInitialLambda o [Some (1%Z, H)] f0 = Ok (fmul (fabs (H 0 0)%Z) (lambdaScale o)).
Proof. intros o H S P. unfold setInitialLambda. replace (negb (feq f0 f0)) with false by (vm_compute; reflexivity). rewrite S. unfold scan_blocks. change (Z.to_nat 1) with 1%nat. cbn [scan_rows]. rewrite P. reflexivity. Qed.
