(** * Optimizer2: why a run stops on its own (part of C23) *)
From Coq Require Import ZArith Reals List Bool Lia Lra.
From Flocq Require Import Core BinarySingleNaN.
From Verif Require Import Lib_Res Lib_Float Optimizer2_Model Optimizer2_Spec Optimizer2_Proofs Optimizer2_Toy.
Import ListNotations.
Open Scope R_scope.

(** the number of steps that were applied and not taken back *)
Definition kept (log : list op) : Z :=
  (Z.of_nat (length (filter (fun o => match o with OApply => true | _ => false end) log)) -
   Z.of_nat (length (filter (fun o => match o with ORevert => true | _ => false end) log)))%Z.

(** a difference of doubles that is computed as more than a double [d] is more than [d] *)
Lemma fsub_gt : forall x y d : b64, is_finite x = true -> is_finite y = true -> is_finite d = true -> val y <= val x ->
  fgt (fabs (fsub x y)) d = true -> val d < val x - val y.
Proof.
  intros x y d Fx Fy Fd L G. destruct (Rlt_le_dec (val d) (val x - val y)) as [|Q]; auto. exfalso.
  unfold fsub, val, fgt, fabs in *. pose proof (Bminus_correct 53 1024 prec53 emax1024 mode_NE x y Fx Fy) as C.
  set (r := round radix2 (SpecFloat.fexp 53 1024) (round_mode mode_NE) (B2R x - B2R y)) in *.
  assert (0 <= r) as r0.
  { unfold r. rewrite <- (round_0 radix2 (SpecFloat.fexp 53 1024) (round_mode mode_NE)). apply round_le; try lra; try typeclasses eauto. }
  assert (r <= B2R d) as r1.
  { unfold r. rewrite <- (round_generic radix2 (SpecFloat.fexp 53 1024) (round_mode mode_NE) (B2R d)) by (apply generic_format_B2R).
    apply round_le; try lra; try typeclasses eauto. }
  assert (B2R d < bpow radix2 1024) as r2.
  { eapply Rle_lt_trans; [apply Rle_abs|apply abs_B2R_lt_emax]. }
  rewrite Rlt_bool_true in C by (rewrite Rabs_pos_eq; lra). destruct C as (V & F & _).
  apply flt_finite in G; auto; [|rewrite is_finite_Babs; auto]. unfold val in G. rewrite B2R_Babs, V in G. rewrite Rabs_pos_eq in G; lra.
Qed.

Opaque fsub fadd fz fl flt fle fabs fopp.
Section P.
  Context {W D : Type} (E : @env W D) (opt : options).

  Definition good (log : list op) : Prop := (forall c, In (OEval c) log -> is_finite c = true) /\ ~ In (OSolve false) log.
  Definition stops (l : @loopst W D) : Prop := good (log l) ->
    lsf l = false /\ is_finite (pJ l) = true /\
    let k := IZR (kept (log l)) in let dl := val (convergenceDeltaError opt) in
    (k * dl <= val (JStart (st l)) - val (pJ l) \/
     (fgt (fabs (deltaError (st l))) (convergenceDeltaError opt) = false /\ (k - 1) * dl <= val (JStart (st l)) - val (pJ l))).

  Lemma good_tail : forall o os, good (o ++ os) -> good os.
  Proof. intros o os [A B]. split; intros; [apply A|intros Q; apply B]; apply in_app_iff; auto. Qed.
  Lemma fin_nan : forall x : b64, is_finite x = true -> isnan x = false.
  Proof. intros []; cbn; auto; discriminate. Qed.

  Lemma stops_step : is_finite (convergenceDeltaError opt) = true -> eRevertOnFailure E = true ->
    forall l l', stops l -> continue_ opt l = true -> iteration E l = Ok l' -> stops l'.
  Proof.
    intros Fd RO l l' S C H G. apply iteration_cases in H. destruct H as ((F1 & F2 & F3) & H).
    destruct H as [(d & w1 & X & H1 & H2 & _)|(d & w1 & dX & w2 & c & w3 & X & A & V & H1 & H2 & H3 & H4 & H5 & H6 & H7 & H)].
    { exfalso. rewrite H2 in G. apply (proj2 G). left. reflexivity. }
    assert (is_finite c = true) as Fc.
    { destruct H as [(_ & _ & _ & _ & L & _)|(_ & _ & _ & _ & L & _)]; rewrite L in G; apply (proj1 G); [right; left|left]; reflexivity. }
    assert (good (log l)) as G0.
    { destruct H as [(_ & _ & _ & _ & L & _)|(_ & _ & _ & _ & L & _)]; rewrite L in G.
      - exact (good_tail [ORevert; OEval c; OApply; OSolve true] _ G).
      - exact (good_tail [OEval c; OApply; OSolve true] _ G). }
    destruct (S G0) as (S1 & S2 & S3). cbv zeta in S3.
    assert (IZR (kept (log l)) * val (convergenceDeltaError opt) <= val (JStart (st l)) - val (pJ l)) as K.
    { destruct S3 as [|[Q _]]; auto. unfold continue_ in C. rewrite S1, Q in C. rewrite !andb_false_r in C. discriminate. }
    rewrite RO in H. cbn [andb] in H.
    destruct H as [(R & _ & P & _ & L & _)|(R & _ & P & _ & L & _)].
    - split; [congruence|]. split; [rewrite P; auto|]. left. rewrite P, F1, L.
      replace (kept (ORevert :: OEval c :: OApply :: OSolve true :: log l)) with (kept (log l)) by (unfold kept; cbn [filter length]; lia). exact K.
    - split; [congruence|]. split; [rewrite P; auto|]. cbv zeta. rewrite P, F1, L, H7.
      replace (kept (OEval c :: OApply :: OSolve true :: log l)) with (kept (log l) + 1)%Z by (unfold kept; cbn [filter length]; lia).
      rewrite plus_IZR.
      assert (val c <= val (pJ l)) as Lc.
      { apply fle_finite; auto. apply regression_false_le; auto using fin_nan. }
      destruct (fgt (fabs (fsub (pJ l) c)) (convergenceDeltaError opt)) eqn:T.
      + left. pose proof (fsub_gt (pJ l) c _ S2 Fc Fd Lc T). nra.
      + right. split; auto. nra.
  Qed.

  Theorem kept_steps : eRevertOnFailure E = true ->
    is_finite (convergenceDeltaError opt) = true -> 0 <= val (convergenceDeltaError opt) ->
    forall s d w l, optimize E opt s d w = Some (Ok l) ->
    (forall c, In (OEval c) (log l) -> is_finite c = true) -> ~ In (OSolve false) (log l) ->
    (IZR (kept (log l)) - 1) * val (convergenceDeltaError opt) <= val (JStart (st l)) - val (JFinal (st l)).
  Proof.
    intros RO Fd Pd s d w l H G1 G2. unfold optimize, optimize_fuel in H.
    destruct (loop E opt (enough opt s) (prologue E opt s d w)) as [[l'| |]|] eqn:L; try discriminate. injection H as <-.
    apply (loop_ind E opt stops) in L.
    - destruct L as (S & _). destruct (S (conj G1 G2)) as (_ & _ & K). cbv zeta in K.
      change (JFinal (st (epilogue opt l'))) with (pJ l'). change (log (epilogue opt l')) with (log l').
      change (JStart (st (epilogue opt l'))) with (JStart (st l')). destruct K as [K|[_ K]]; lra.
    - intros. eapply stops_step; eauto.
    - intros [A B]. unfold prologue, evaluateError in *. cbn [world pJ st] in *.
      destruct (eEval E w (fopp (fz 1))) as [e w1]. cbn [st error log world dx pJ lsf JStart] in *.
      split; [reflexivity|]. split; [apply A; left; reflexivity|]. left. unfold kept. cbn. lra.
  Qed.

  Theorem kept_steps_bound : eRevertOnFailure E = true ->
    is_finite (convergenceDeltaError opt) = true -> 0 < val (convergenceDeltaError opt) ->
    forall s d w l, optimize E opt s d w = Some (Ok l) ->
    (forall c, In (OEval c) (log l) -> is_finite c = true /\ 0 <= val c) -> ~ In (OSolve false) (log l) ->
    IZR (kept (log l)) <= val (JStart (st l)) / val (convergenceDeltaError opt) + 1.
  Proof.
    intros RO Fd Pd s d w l H G1 G2.
    pose proof (kept_steps RO Fd (Rlt_le _ _ Pd) s d w l H (fun c Q => proj1 (G1 c Q)) G2) as K.
    assert (0 <= val (JFinal (st l))) as F.
    { apply G1. apply (never_worse E opt s d w l RO H). intros c Q. apply fin_nan. apply G1; auto. }
    apply Rmult_le_reg_r with (val (convergenceDeltaError opt)); auto.
    unfold Rdiv. rewrite Rmult_plus_distr_r, Rmult_assoc, Rinv_l by lra. lra.
  Qed.
End P.

Lemma toy_kept : exists l, toy_run true 100 9 [(true, -3); (true, 20); (true, -4)]%Z = Some (Ok l) /\
  kept (log l) = 3%Z /\ JStart (st l) = fz 81 /\ JFinal (st l) = fz 4 /\ conv (st l) = DX /\
  forallb (fun o => match o with OEval c => is_finite c | OSolve b => b | _ => true end) (log l) = true.
Proof.
  destruct (run_check (toy_run true 100 9 [(true, -3); (true, 20); (true, -4)]%Z) (fun l => Z.eqb (kept (log l)) 3 && same (JStart (st l)) (fz 81) &&
    same (JFinal (st l)) (fz 4) && conv_same (conv (st l)) DX && forallb (fun o => match o with OEval c => is_finite c | OSolve b => b | _ => true end) (log l))) as (l & R & H).
  { vm_compute. reflexivity. }
  split_and H H4. split_and H H3. split_and H H2. split_and H H1. exists l.
  exact (conj R (conj (proj1 (Z.eqb_eq _ _) H) (conj (same_eq _ _ H1) (conj (same_eq _ _ H2) (conj (conv_same_eq _ _ H3) H4))))).
Qed.
Lemma toy_failed_kept : exists l, toy_run true 100 3 [(false, 0); (true, -3)]%Z = Some (Ok l) /\
  kept (log l) = 100%Z /\ JStart (st l) = fz 9 /\ JFinal (st l) = fz 0 /\ eRevertOnFailure (toy_env true) = true /\
  filter (fun o => match o with OSolve false => true | _ => false end) (log l) = [OSolve false].
Proof.
  destruct (run_check (toy_run true 100 3 [(false, 0); (true, -3)]%Z) (fun l => Z.eqb (kept (log l)) 100 && same (JStart (st l)) (fz 9) &&
    same (JFinal (st l)) (fz 0) && eRevertOnFailure (toy_env true) &&
    log_same (filter (fun o => match o with OSolve false => true | _ => false end) (log l)) [OSolve false])) as (l & R & H).
  { vm_compute. reflexivity. }
  split_and H H4. split_and H H3. split_and H H2. split_and H H1. exists l.
  exact (conj R (conj (proj1 (Z.eqb_eq _ _) H) (conj (same_eq _ _ H1) (conj (same_eq _ _ H2) (conj H3 (log_same_eq _ _ H4)))))).
Qed.
Transparent fl.
Lemma toy_threshold : forall n, is_finite (convergenceDeltaError (toy_opt n)) = true /\ 0 < val (convergenceDeltaError (toy_opt n)).
Proof.
  intros n. split; [vm_compute; reflexivity|]. change (val (convergenceDeltaError (toy_opt n))) with (val (fl 1 (-10))).
  change 0 with (val f0). apply flt_finite; vm_compute; reflexivity.
Qed.
