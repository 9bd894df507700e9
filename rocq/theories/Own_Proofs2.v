(** * Ownership: the four solvers *)
From Coq Require Import Arith Lia List Bool Sorting.Permutation.
From Verif Require Import Own_Model Own_Spec Own_Proofs.
Import ListNotations.

Ltac perm := cbn [handed app]; rewrite ?app_nil_r; repeat rewrite <- app_assoc; solve [auto | apply Permutation_app_comm | apply Permutation_app_swap_app | apply perm_swap].

Section Solvers.
  Variable orc : call -> nat -> ans.
  Hypothesis P : promise orc.

  (** ** histories *)
  Lemma runs_inv : forall (O : Type) (exec : O -> M unit) (N : Prop) (I : nat -> world -> Prop) (Al : O -> Prop),
    (forall o n w, Al o -> I n w -> wp N (exec o) (fun _ w' => I n w') (fun w' => I (S n) w') w) ->
    forall os n w, Forall Al os -> I n w -> wp N (runs exec os n) (fun m w' => I m w') (fun _ => False) w.
  Proof.
    intros O exec N I Al St os. induction os as [|o os IH]; intros n w F H.
    - exact H.
    - inversion F; subst. specialize (St o n w H2 H). unfold wp in *. cbn [runs]. destruct (exec o w) as [[] w'|w'| |]; auto; apply IH; auto.
  Qed.

  (** ** SparseCholeskyLinearSystemSolver *)
  Section Chol.
    Notation held := (tidy_but KFactor).
    Lemma free_factor_ok : forall N k (Q : unit -> world -> Prop) E w e, tidy_but k e w -> (forall w', tidy_but k e w' -> factor w' = None -> Q tt w') -> wp N (free_factor k) Q E w.
    Proof.
      intros N k Q E w e H HQ. unfold free_factor. apply wp_seq, wp_get. destruct (factor w) as [i|] eqn:F; cbn [is_null].
      - unfold ch_free. cbn [is_null]. eapply wp_drop; eauto.
      - apply wp_ret. auto.
    Qed.
    Lemma copy_out_ok : forall N k sol b (Q : bool -> world -> Prop) (E : world -> Prop) w e, tidy_but k (handed sol KDense ++ e) w -> (forall r w', tidy_but k e w' -> factor w' = factor w -> Q r w') -> (b = false -> forall w', tidy_but k e w' -> factor w' = factor w -> E w') -> wp N (copy_out sol b) Q E w.
    Proof.
      intros N k sol b Q E w e H HQ HE. unfold copy_out. destruct sol as [i|]; cbn [is_null].
      - apply wp_seq. eapply wp_touch; [exact H|reflexivity|discriminate|]. intros _. destruct b.
        + apply wp_seq. eapply wp_chfree; [exact H|reflexivity|]. intros w' H' F _. apply wp_ret. auto.
        + apply wp_seq. eapply wp_chfree; [exact H|reflexivity|]. intros w' H' F _. apply wp_throw. auto.
      - apply wp_ret. auto.
    Qed.
    Lemma sc_factorize_solve : forall f (Q : ptr * bool -> world -> Prop) (E : world -> Prop) w e, held e w -> factor w = f -> is_null f = false ->
      (forall p b w', held (handed p KDense ++ e) w' -> factor w' = f -> Q (p, b) w') -> wp False (ch_solve orc f) Q E w.
    Proof.
      intros f Q E w e H F Nf HQ. unfold ch_solve, ch_factorize. rewrite Nf. cbn [negb assert]. apply wp_seq, wp_seq, wp_ret, wp_seq.
      eapply wp_touch_factor; [exact H|exact F|rewrite Nf; discriminate|]. intros _. apply wp_seq. apply wp_ask with (k := KFactor) (e := e); auto. intros n w' H' F' _. apply wp_ret.
      destruct (_ && _).
      - eapply wp_obtain; [exact H'|]. intros. apply HQ; auto. congruence.
      - apply wp_ret. apply HQ; auto. congruence.
    Qed.
    Lemma sc_op_ok : forall o e w, held e w -> wp False (sc_exec orc o) (fun _ w' => held e w') (fun w' => held e w') w.
    Proof.
      intros [| |] e w H; cbn [sc_exec].
      - eapply free_factor_ok; [exact H|auto].
      - exact H.
      - apply wp_seq. unfold sc_solve. apply wp_seq, wp_get, wp_seq.
        assert (Rest : forall w', held e w' -> is_null (factor w') = false -> wp False (let! f := get_factor in let! sol := ch_solve orc f in copy_out (fst sol) (snd sol)) (fun a w'0 => wp False (ret tt) (fun _ w'1 => held e w'1) (fun w'1 => held e w'1) w'0) (fun w'0 => held e w'0) w').
        { intros w' H' Nf. apply wp_seq, wp_get, wp_seq. eapply sc_factorize_solve; [exact H'|reflexivity|exact Nf|]. intros p b w'' H'' F''. cbn [fst snd].
          eapply copy_out_ok; [exact H''| |]; intros; auto. }
        destruct (factor w) as [i|] eqn:F; cbn [is_null].
        + apply wp_ret. apply Rest; auto. rewrite F. auto.
        + apply wp_seq. unfold ch_analyze. apply wp_seq. eapply wp_obtain; [exact H|]. intros p b n w' H' F' En Es. apply wp_seq, wp_status, wp_seq.
          rewrite (null_status orc P _ _ _ _ En Es). destruct p as [i|]; cbn [is_null negb assert fst].
          * apply wp_ret, wp_seq, wp_ret, wp_ret. eapply wp_set; [exact H'|reflexivity|congruence|]. intros w2 H2 F2 _. apply Rest; auto. rewrite F2. auto.
          * apply wp_throw. auto.
    Qed.
    Lemma sc_destroy_ok : forall N e w, held e w -> wp N sc_destroy (fun _ w' => Permutation (live w') e) (fun _ => False) w.
    Proof.
      intros N e w H. unfold sc_destroy. apply wp_seq, wp_get, wp_seq. destruct (factor w) as [i|] eqn:F; cbn [is_null].
      - unfold ch_free. cbn [is_null]. destruct (held_live KFactor i KFactor e (mkWorld (live w) (fresh w) (status w) (work w) (tick w) None (rset w))) as (r & E & H2).
        { unfold tidy_but, own in *. cbn [live factor work handed app]. rewrite H, F. cbn [handed app]. apply Permutation_middle. }
        cbn [live set_live fresh status work tick rset factor] in *. unfold wp at 1, lib_free. rewrite E. unfold tidy_but, own in H2. cbn [live factor work handed app] in H2.
        unfold wp, lib_finish, seqm, lib_free, set_live. cbn [work live fresh status tick factor rset]. destruct (work w) as [j|]; cbn [handed app] in H2.
        + destruct (take_in j KWork r) as (r2 & E2); [eapply Permutation_in; [symmetry; exact H2|left; auto]|]. rewrite E2. cbn [live]. apply Permutation_cons_inv with (j, KWork). rewrite <- H2. symmetry. apply take_some. auto.
        + exact H2.
      - apply wp_ret. eapply wp_finish; [exact H|]. intros w' H' F' Wn. unfold tidy_but, own in H'. rewrite Wn, F', F in H'. exact H'.
    Qed.
    Lemma sc_history : forall os, exists n w, runs (sc_exec orc) os 0 constructed = Ret n w /\ tidy KFactor w /\ exists w', sc_destroy w = Ret tt w' /\ live w' = [].
    Proof.
      intros os. pose proof (runs_inv _ (sc_exec orc) False (fun _ w => held [] w) (fun _ => True) (fun o n w _ H => sc_op_ok o [] w H) os 0 constructed) as Q.
      assert (F : Forall (fun _ : sc_op => True) os) by (apply Forall_forall; auto). specialize (Q F (perm_nil _)). unfold wp in Q.
      destruct (runs _ _ _ _) as [n w|w| |]; try contradiction. exists n, w. split; auto. split; auto.
      pose proof (sc_destroy_ok False [] w Q) as D. unfold wp in D. destruct (sc_destroy w) as [[] w'|w'| |]; try contradiction. exists w'. split; auto. apply Permutation_nil. symmetry. auto.
    Qed.
  End Chol.
End Solvers.
