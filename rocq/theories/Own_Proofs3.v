(** * Ownership: SparseQrLinearSystemSolver, LinearSolverCholmod, LinearSolverQr *)
From Coq Require Import Arith Lia List Bool Sorting.Permutation.
From Verif Require Import Own_Model Own_Spec Own_Proofs Own_Proofs2.
Import ListNotations.

Lemma sq_destroy_ok : forall N e w, tidy_but KQr e w -> wp N sq_destroy (fun _ w' => Permutation (live w') e) (fun _ => False) w.
Proof.
  intros N e w H. unfold sq_destroy. apply wp_seq. eapply free_factor_ok; [exact H|]. intros w' H' F'. eapply wp_finish; [exact H'|]. intros w2 H2 F2 Wn. unfold tidy_but, own in H2. rewrite Wn, F2, F' in H2. exact H2.
Qed.

Section Qr.
  Variable orc : call -> nat -> ans.
  Hypothesis P : promise orc.
  Variable N : Prop.
  Notation held := (tidy_but KQr).

  Lemma analyzeQR_ok : forall (Q : ptr -> world -> Prop) (E : world -> Prop) w e, held e w ->
    (forall p w', held (handed p KQr ++ e) w' -> factor w' = factor w -> is_null p = false -> Q p w') -> (forall w', held e w' -> E w') -> wp N (ch_analyzeQR orc) Q E w.
  Proof.
    intros Q E w e H HQ HE. unfold ch_analyzeQR. apply wp_seq. eapply wp_obtain; [exact H|]. intros j b n w1 H1 F1 _ _. apply wp_seq. eapply wp_obtain; [exact H1|].
    intros p b' n' w2 H2 F2 En Es. cbn [fst]. apply wp_seq. eapply wp_free; [exact H2|apply Permutation_app_swap_app|]. intros w3 H3 F3 S3. apply wp_seq, wp_status, wp_seq.
    rewrite S3, (null_status orc P _ _ _ _ En Es). destruct p as [i|]; cbn [is_null negb assert].
    - apply wp_ret, wp_seq, wp_ret, wp_ret. apply HQ; auto. congruence.
    - apply wp_throw. auto.
  Qed.
  Lemma factorizeQR_ok : forall t l (Q : bool -> world -> Prop) (E : world -> Prop) w e e', held e w -> Permutation e (handed t KSparse ++ e') -> factor w = l -> is_null l = false ->
    (forall n w', held e w' -> factor w' = l -> is_null t = false -> Q (stat_ok (an_stat (orc CNumeric n)) && an_ret (orc CNumeric n)) w') -> (is_null t = true -> E w) -> wp N (ch_factorizeQR orc t l) Q E w.
  Proof.
    intros t l Q E w e e' H Pe F Nl HQ HE. unfold ch_factorizeQR. apply wp_seq, wp_assert; [|intros Nt; apply HE; destruct t; auto; discriminate].
    intros Nt. apply negb_true_iff in Nt. apply wp_seq, wp_assert; [|rewrite Nl; discriminate]. intros _. apply wp_seq.
    eapply wp_touch; [exact H|exact Pe|rewrite Nt; discriminate|]. intros _. apply wp_seq. eapply wp_touch_factor; [exact H|exact F|rewrite Nl; discriminate|]. intros _.
    apply wp_seq. apply wp_ask with (k := KQr) (e := e); auto. intros n w' H' F' _. apply wp_ret. apply HQ; auto. congruence.
  Qed.

  (* when no null pointer is followed *)
  Definition nulls (norm : bool) : Prop := N \/ (gives orc CTranspose /\ gives orc CAllocDense /\ (norm = true -> works orc CNumeric /\ gives orc CQrSolve)).

  Lemma solveQR_ok : forall l norm (Q : ptr * bool -> world -> Prop) (E : world -> Prop) w e, nulls norm -> held e w -> factor w = l -> is_null l = false ->
    (forall p b w', held (handed p KDense ++ e) w' -> factor w' = l -> Q (p, b) w') -> (forall w' e', held (e' ++ e) w' -> length e' <= 2 -> E w') -> wp N (ch_solveQR orc l norm) Q E w.
  Proof.
    intros l norm Q E w e Nu H F Nl HQ HE. unfold ch_solveQR. apply wp_seq. eapply wp_obtain; [exact H|]. intros j b n w1 H1 F1 Ej _. cbn [fst]. apply wp_seq.
    apply wp_weaken with (Q := fun s w' => held (handed s KDense ++ handed j KSparse ++ e) w' /\ factor w' = l /\ (norm = true -> is_null s = false /\ is_null j = false) /\ (norm = false -> s = None)) (E := fun w' => exists e', held (e' ++ e) w' /\ length e' <= 2); [| |intros w' (e' & A & B); eauto].
    { destruct norm.
      - apply wp_seq. eapply wp_touch; [exact H1|reflexivity| |].
        { intros X. destruct Nu as [Nu|Nu]; auto. destruct Nu as (G & _). rewrite (G n) in Ej. congruence. }
        intros Nj. apply wp_seq. eapply wp_obtain; [exact H1|]. intros s b' n' w2 H2 F2 Es _. cbn [fst]. apply wp_seq. eapply wp_touch; [exact H2|reflexivity| |].
        { intros X. destruct Nu as [Nu|Nu]; auto. destruct Nu as (_ & G & _). rewrite (G n') in Es. congruence. }
        intros Ns. apply wp_seq. apply wp_ask with (k := KQr) (e := handed s KDense ++ handed j KSparse ++ e); auto. intros n3 w3 H3 F3 _. apply wp_seq, wp_assert.
        + intros _. apply wp_ret. split; auto. split; [congruence|]. split; [auto|discriminate].
        + intros _. exists (handed s KDense ++ handed j KSparse). rewrite <- app_assoc. split; auto. destruct s, j; cbn; lia.
      - apply wp_ret. split; auto. split; [congruence|]. split; [discriminate|auto]. }
    intros s w2 (H2 & F2 & Ns & Nn). apply wp_seq. eapply factorizeQR_ok; [exact H2|apply Permutation_app_swap_app|exact F2|exact Nl| |].
    2:{ intros Nj. destruct j as [j|]; [discriminate|]. cbn [handed app] in H2. apply HE with (handed s KDense); auto. destruct s; cbn; lia. }
    intros n3 w3 H3 F3 Nj. apply wp_seq.
    apply wp_weaken with (Q := fun r w' => held (handed (fst r) KDense ++ handed s KDense ++ handed j KSparse ++ e) w' /\ factor w' = l /\ (norm = true -> is_null (fst r) = true -> N)) (E := fun _ => False); [| |intros w' []].
    { destruct (stat_ok (an_stat (orc CNumeric n3)) && an_ret (orc CNumeric n3)) eqn:En.
      - apply wp_seq. eapply wp_obtain; [exact H3|]. intros y b' n4 w4 H4 F4 _ _. cbn [fst]. apply wp_seq. eapply wp_obtain; [exact H4|]. intros r b5 n5 w5 H5 F5 Er _. apply wp_seq.
        eapply wp_free; [exact H5|apply Permutation_app_swap_app|]. intros w6 H6 F6 _. apply wp_ret. cbn [fst]. split; auto. split; [congruence|].
        intros Hn X. destruct Nu as [Nu|(_ & _ & Nu)]; auto. destruct (Nu Hn) as (_ & G). rewrite (G n5) in Er. congruence.
      - apply wp_ret. cbn [fst handed app]. split; auto. split; auto. intros Hn _. destruct Nu as [Nu|(_ & _ & Nu)]; auto. destruct (proj1 (Nu Hn) n3) as (A & B). rewrite A, B in En. discriminate. }
    intros r w4 (H4 & F4 & Nr). apply wp_seq.
    apply wp_weaken with (Q := fun _ w' => held (handed (fst r) KDense ++ handed j KSparse ++ e) w' /\ factor w' = l) (E := fun _ => False); [| |intros w' []].
    { destruct norm.
      - destruct (Ns eq_refl) as (Ns1 & Ns2). apply wp_seq. eapply wp_touch; [exact H4|apply Permutation_app_swap_app|rewrite Ns1; discriminate|]. intros _. apply wp_seq. eapply wp_touch; [exact H4|reflexivity|auto|]. intros _.
        apply wp_seq. eapply wp_touch with (e' := handed (fst r) KDense ++ handed s KDense ++ e); [exact H4| |rewrite Ns2; discriminate|].
        { rewrite (Permutation_app_swap_app (handed s KDense)). apply Permutation_app_swap_app. }
        intros _. eapply wp_free; [exact H4|apply Permutation_app_swap_app|]. intros w5 H5 F5 _. split; auto. congruence.
      - apply wp_ret. rewrite (Nn eq_refl) in H4. auto. }
    intros [] w5 (H5 & F5). apply wp_seq. eapply wp_free; [exact H5|apply Permutation_app_swap_app|]. intros w6 H6 F6 _. apply wp_ret. destruct r as [p b6]. apply HQ; auto. congruence.
  Qed.

  Definition nulls_op (o : sq_op) : Prop := match o with SqSolve norm _ => nulls norm | SqGetR _ => N \/ gives orc CTranspose | _ => True end.
  Lemma with_factor : forall A (rest : M A) (Q : A -> world -> Prop) (E : world -> Prop) w e, held e w ->
    (forall w', held e w' -> is_null (factor w') = false -> wp N rest Q E w') -> (forall w', held e w' -> E w') ->
    wp N (let! f := get_factor in (if is_null f then (let! p := ch_analyzeQR orc in set_factor p) else ret tt);; rest) Q E w.
  Proof.
    intros A rest Q E w e H HR HE. apply wp_seq, wp_get, wp_seq. destruct (factor w) as [i|] eqn:F; cbn [is_null].
    - apply wp_ret. apply HR; auto. rewrite F. auto.
    - apply wp_seq. eapply analyzeQR_ok; [exact H| |exact HE]. intros p w' H' F' Np. eapply wp_set; [exact H'|reflexivity|congruence|]. intros w2 H2 F2 _. apply HR; auto. rewrite F2. auto.
  Qed.
  Lemma sq_op_ok : forall o e w, nulls_op o -> held e w -> wp N (sq_exec orc o) (fun _ w' => held e w') (fun w' => exists e', held (e' ++ e) w' /\ length e' <= 2) w.
  Proof.
    intros [| |norm verbose|entries| |] e w Nu H; cbn [sq_exec].
    - eapply free_factor_ok; [exact H|auto].
    - exact H.
    - apply wp_seq. unfold sq_solve. apply with_factor with e; [auto| |intros w' H'; exists []; auto]. intros w1 H1 Nf. apply wp_seq, wp_get, wp_seq. eapply solveQR_ok; [exact Nu|exact H1|reflexivity|exact Nf| |eauto].
      intros p b w2 H2 F2. cbn [fst snd]. apply wp_seq. eapply copy_out_ok; [exact H2| |].
      + intros r w3 H3 F3. apply wp_seq. destruct (r && verbose).
        * eapply wp_touch_factor; [exact H3|congruence|rewrite Nf; discriminate|]. intros _. apply wp_ret, wp_ret. auto.
        * apply wp_ret, wp_ret, wp_ret. auto.
      + intros _ w3 H3 _. exists []. auto.
    - unfold sq_getR. unfold wp at 1. destruct (rset w); [exact H|].
      change (wp N (let! r := ch_getR orc in assert (snd r);; ch_free KSparse (fst r);; set_rset entries) (fun _ w' => held e w') (fun w' => exists e', held (e' ++ e) w' /\ length e' <= 2) w).
      apply wp_seq. unfold ch_getR. apply wp_seq. eapply wp_obtain; [exact H|]. intros j b n w1 H1 F1 Ej _. cbn [fst]. apply wp_seq. eapply wp_touch; [exact H1|reflexivity| |].
      { intros X. destruct Nu as [Nu|Nu]; auto. rewrite (Nu n) in Ej. congruence. }
      intros Nj. apply wp_seq. eapply wp_obtain; [exact H1|]. intros r b2 n2 w2 H2 F2 _ _. apply wp_seq, wp_status, wp_seq, wp_assert.
      + intros _. apply wp_seq. eapply wp_free; [exact H2|apply Permutation_app_swap_app|]. intros w3 H3 _ _. apply wp_ret. cbn [fst snd]. apply wp_seq, wp_assert.
        * intros _. apply wp_seq. eapply wp_chfree; [exact H3|reflexivity|]. intros w4 H4 _ _. exact H4.
        * intros _. exists (handed r KSparse). split; auto. destruct r; cbn; lia.
      + intros _. exists (handed r KSparse ++ handed j KSparse). rewrite <- app_assoc. split; auto. destruct r, j; cbn; lia.
    - unfold sq_analyze. apply with_factor with e; [auto| |intros w' H'; exists []; auto]. intros w1 H1 Nf. apply wp_seq, wp_get, wp_seq. unfold ch_factorizeQR_transposed. apply wp_seq.
      eapply wp_obtain; [exact H1|]. intros t b n w2 H2 F2 _ _. cbn [fst]. apply wp_seq. eapply factorizeQR_ok; [exact H2|reflexivity|exact F2|exact Nf| |].
      + intros n3 w3 H3 F3 _. apply wp_seq. eapply wp_free; [exact H3|reflexivity|]. intros w4 H4 _ _. apply wp_ret, wp_assert; intros _; auto. exists []. auto.
      + intros Nt. destruct t; [discriminate|]. exists []. auto.
    - unfold sq_query. apply wp_seq, wp_get, wp_seq, wp_assert.
      + intros Nf. apply negb_true_iff in Nf. eapply wp_touch_factor; [exact H|reflexivity|rewrite Nf; discriminate|]. auto.
      + intros _. exists []. auto.
  Qed.
  Lemma sq_history : forall os, Forall nulls_op os ->
    wp N (runs (sq_exec orc) os 0) (fun n w => exists lost, tidy_but KQr lost w /\ length lost <= 2 * n /\ exists w', sq_destroy w = Ret tt w' /\ Permutation (live w') lost) (fun _ => False) constructed.
  Proof.
    intros os F. pose proof (runs_inv _ (sq_exec orc) N (fun n w => exists e, held e w /\ length e <= 2 * n) nulls_op) as Q.
    apply wp_weaken with (Q := fun n w => exists e, held e w /\ length e <= 2 * n) (E := fun _ => False); [apply Q; auto| |intros w []].
    - intros o n w Nu (e & H & L). eapply wp_weaken; [apply sq_op_ok with (e := e); auto| |].
      + intros [] w' H'. eauto.
      + intros w' (e' & H' & L'). exists (e' ++ e). split; auto. rewrite app_length. lia.
    - exists []. split; [apply perm_nil|auto].
    - intros n w (e & H & L). exists e. split; auto. split; auto. pose proof (sq_destroy_ok False e w H) as D. unfold wp in D. destruct (sq_destroy w) as [[] w'|w'| |] eqn:X; try contradiction. eauto.
  Qed.
End Qr.

(** ** LinearSolverCholmod *)
Section Lc.
  Variable orc : call -> nat -> ans.
  Hypothesis P : promise orc.
  Variable N : Prop.
  Notation held := (tidy_but KFactor).
  Hypothesis Nu : N \/ (gives orc CAnalyze /\ gives orc CSolve /\ works orc CAmd /\ works orc CChange).

  Lemma lc_symbolic_ok : forall bo (Q : unit -> world -> Prop) (E : world -> Prop) w e, held e w -> factor w = None ->
    (forall w', held e w' -> (is_null (factor w') = true -> N) -> Q tt w') -> wp N (lc_symbolic orc bo) Q E w.
  Proof.
    intros bo Q E w e H F HQ. unfold lc_symbolic.
    assert (An : forall w', held e w' -> factor w' = None -> wp N (let! p := obtain orc CAnalyze KFactor in set_factor (fst p)) Q E w').
    { intros w' H' F'. apply wp_seq. eapply wp_obtain; [exact H'|]. intros p b n w2 H2 F2 Ep _. cbn [fst]. eapply wp_set; [exact H2|reflexivity|congruence|]. intros w3 H3 F3 _. apply HQ; auto.
      rewrite F3, Ep. intros X. destruct Nu as [X2|(G & _)]; auto. rewrite (G n) in X. discriminate. }
    destruct bo; [|auto]. apply wp_seq. apply wp_ask with (k := KFactor) (e := e); auto. intros n w' H' F' _. destruct (an_ret (orc CAmd n)) eqn:R.
    - apply An; auto. congruence.
    - apply wp_ret. apply HQ; auto. intros _. destruct Nu as [X|(_ & _ & G & _)]; auto. rewrite (proj1 (G n)) in R. discriminate.
  Qed.
  Lemma lc_with_factor : forall A bo (rest : M A) (Q : A -> world -> Prop) (E : world -> Prop) w e, held e w ->
    (forall w', held e w' -> (is_null (factor w') = true -> N) -> wp N rest Q E w') ->
    wp N (let! f := get_factor in (if is_null f then lc_symbolic orc bo else ret tt);; rest) Q E w.
  Proof.
    intros A bo rest Q E w e H HR. apply wp_seq, wp_get, wp_seq. destruct (factor w) as [i|] eqn:F; cbn [is_null].
    - apply wp_ret. apply HR; auto. rewrite F. discriminate.
    - eapply lc_symbolic_ok; eauto.
  Qed.
  Lemma lc_factorize_ok : forall f (Q : ans -> world -> Prop) (E : world -> Prop) w e, held e w -> factor w = f -> (forall n w', held e w' -> factor w' = f -> Q (orc CFactorize n) w') -> wp N (lc_factorize orc f) Q E w.
  Proof.
    intros f Q E w e H F HQ. unfold lc_factorize. apply wp_seq. assert (R : wp N (ask orc CFactorize) Q E w) by (apply wp_ask with (k := KFactor) (e := e); auto; intros; apply HQ; auto; congruence).
    destruct f as [i|]; cbn [is_null]; [|exact R]. eapply wp_touch_factor; [exact H|exact F|discriminate|]. auto.
  Qed.
  Lemma lc_op_ok : forall o e w, held e w -> wp N (lc_exec orc o) (fun _ w' => held e w') (fun _ => False) w.
  Proof.
    intros [|bo|bo] e w H; cbn [lc_exec].
    - apply wp_seq, wp_get. destruct (factor w) as [i|] eqn:F; cbn [is_null]; [eapply wp_drop; eauto|exact H].
    - apply wp_seq. unfold lc_solve. apply lc_with_factor with e; auto. intros w1 H1 N1. apply wp_seq, wp_get, wp_seq. eapply lc_factorize_ok; [exact H1|reflexivity|]. intros n w2 H2 F2.
      destruct (not_posdef _).
      + apply wp_seq. destruct (factor w1) as [i|] eqn:F; cbn [is_null].
        * eapply wp_drop; [exact H2|auto|]. intros w3 H3 _ _. exact H3.
        * exact H2.
      + apply wp_seq. eapply wp_obtain; [exact H2|]. intros x b n3 w3 H3 F3 Ex _. cbn [fst]. apply wp_seq. eapply wp_touch; [exact H3|reflexivity| |].
        { intros X. destruct Nu as [G|(_ & G & _)]; auto. rewrite (G n3) in Ex. congruence. }
        intros _. apply wp_seq. eapply wp_free; [exact H3|reflexivity|]. intros w4 H4 _ _. exact H4.
    - apply wp_seq. unfold lc_inverse. apply lc_with_factor with e; auto. intros w1 H1 N1. apply wp_seq, wp_get, wp_seq. eapply lc_factorize_ok; [exact H1|reflexivity|]. intros n w2 H2 F2.
      destruct (not_posdef _); [exact H2|]. apply wp_seq. apply wp_ask with (k := KFactor) (e := e); auto. intros n3 w3 H3 F3 _. destruct (an_ret _); [|exact H3].
      apply wp_seq. eapply wp_touch_factor; [exact H3|congruence|exact N1|]. intros _. exact H3.
  Qed.
End Lc.
Lemma lc_destroy_ok : forall N e w, tidy_but KFactor e w -> wp N lc_destroy (fun _ w' => Permutation (live w') e) (fun _ => False) w.
Proof.
  intros N e w H. unfold lc_destroy. apply wp_seq, wp_seq, wp_get.
  assert (R : forall w', tidy_but KFactor e w' -> factor w' = None -> wp N lib_finish (fun _ w' => Permutation (live w') e) (fun _ => False) w').
  { intros w' H' F'. eapply wp_finish; [exact H'|]. intros w2 H2 F2 Wn. unfold tidy_but, own in H2. rewrite Wn, F2, F' in H2. exact H2. }
  destruct (factor w) as [i|] eqn:F; cbn [is_null].
  - eapply wp_drop; [exact H|exact F|]. intros w' H' F' _. apply R; auto.
  - apply wp_ret. apply R; auto.
Qed.
Lemma lc_history : forall orc N, promise orc -> N \/ (gives orc CAnalyze /\ gives orc CSolve /\ works orc CAmd /\ works orc CChange) -> forall os,
  wp N (runs (lc_exec orc) os 0) (fun n w => n = 0 /\ tidy KFactor w /\ exists w', lc_destroy w = Ret tt w' /\ live w' = []) (fun _ => False) constructed.
Proof.
  intros orc N P Nu os. apply wp_weaken with (Q := fun n w => n = 0 /\ tidy KFactor w) (E := fun _ => False); [| |intros w []].
  - apply (runs_inv _ (lc_exec orc) N (fun n w => n = 0 /\ tidy KFactor w) (fun _ => True)).
    + intros o n w _ (-> & H). eapply wp_weaken; [apply (lc_op_ok orc N Nu o []); auto| |intros w' []]. intros [] w' H'. auto.
    + apply Forall_forall. auto.
    + split; auto. apply perm_nil.
  - intros n w (-> & H). split; auto. split; auto. pose proof (lc_destroy_ok False [] w H) as D. unfold wp in D. destruct (lc_destroy w) as [[] w'|w'| |]; try contradiction. exists w'. split; auto. apply Permutation_nil. symmetry. auto.
Qed.

(** ** LinearSolverQr *)
Section Lq.
  Variable orc : call -> nat -> ans.
  Hypothesis P : promise orc.
  Variable N : Prop.
  Notation held := (tidy_but KQr).
  Lemma start_ok : forall (Q : unit -> world -> Prop) (E : world -> Prop) w e, held e w -> (forall w', held (handed (work w) KWork ++ e) w' -> work w' = None -> factor w' = factor w -> Q tt w') -> wp N lib_start Q E w.
  Proof.
    intros Q E w e H HQ. unfold wp, lib_start. apply HQ; auto. unfold tidy_but, own in *. cbn [live factor work handed]. rewrite app_nil_r, H. rewrite app_assoc. auto.
  Qed.
  Lemma lq_op_ok : forall o e w, held e w -> wp N (lq_exec orc o) (fun _ w' => exists e', held (e' ++ e) w' /\ length e' <= (match o with LqSolve => 2 | LqInit => 0 end)) (fun _ => False) w.
  Proof.
    intros [|] e w H; cbn [lq_exec].
    - apply wp_seq, wp_get. destruct (factor w) as [i|] eqn:F; cbn [is_null]; [|exists []; auto]. eapply wp_drop; [exact H|exact F|]. intros w' H' _ _. exists []. auto.
    - apply wp_seq. unfold lq_solve. apply wp_seq. eapply start_ok; [exact H|]. intros w1 H1 _ F1. set (lw := handed (work w) KWork) in *. assert (Lw : length lw <= 1) by (unfold lw; destruct (work w); cbn; lia). apply wp_seq, wp_get, wp_seq.
      apply wp_weaken with (Q := fun _ w' => held (lw ++ e) w') (E := fun _ => False); [| |intros w' []].
      { destruct (factor w1) as [i|] eqn:F; cbn [is_null]; [exact H1|]. apply wp_seq. eapply wp_obtain; [exact H1|]. intros p b n w2 H2 F2 _ _. cbn [fst]. eapply wp_set; [exact H2|reflexivity|congruence|]. auto. }
      intros [] w2 H2. apply wp_seq, wp_get, wp_seq. apply wp_weaken with (Q := fun _ w' => held (lw ++ e) w') (E := fun _ => False); [| |intros w' []].
      { destruct (factor w2) as [i|] eqn:F; cbn [is_null]; [|exact H2]. eapply wp_touch_factor; [exact H2|exact F|discriminate|]. auto. }
      intros [] w3 H3. apply wp_seq. apply wp_ask with (k := KQr) (e := lw ++ e); auto. intros n4 w4 H4 _ _. apply wp_seq. eapply wp_obtain; [exact H4|]. intros y by_ n5 w5 H5 F5 Ey Sy.
      apply wp_seq. eapply wp_obtain; [exact H5|]. intros x bx n6 w6 H6 F6 Ex Sx. apply wp_seq, wp_status. rewrite (null_status orc P _ _ _ _ Ex Sx). cbn [fst]. destruct x as [x|]; cbn [is_null negb].
      + apply wp_seq. eapply wp_touch; [exact H6|reflexivity|discriminate|]. intros _. apply wp_seq. eapply wp_free; [exact H6|reflexivity|]. intros w7 H7 _ _. apply wp_seq. eapply wp_free; [exact H7|reflexivity|]. intros w8 H8 _ _. exists lw. split; auto.
      + exists (handed y KDense ++ lw). cbn [handed app] in H6. rewrite <- app_assoc. split; auto. rewrite app_length. destruct y; cbn; lia.
  Qed.
  (* nothing is lost where no workspace is allocated and nothing fails *)
  Lemma lq_op_tidy : (forall c n, an_work (orc c n) = false /\ an_stat (orc c n) = SOk) -> forall o w, work w = None -> held [] w -> wp N (lq_exec orc o) (fun _ w' => held [] w' /\ work w' = None) (fun _ => False) w.
  Proof.
    intros G.
    assert (Ga : forall c w, exists w', ask orc c w = Ret (orc c (tick w)) w' /\ work w' = work w /\ live w' = live w /\ factor w' = factor w /\ status w' = SOk).
    { intros c w. unfold ask. rewrite (proj1 (G c (tick w))). cbn [andb]. eexists. split; [reflexivity|]. repeat split. cbn. apply G. }
    assert (Gn : forall c n, an_null (orc c n) = false). { intros c n. destruct (an_null (orc c n)) eqn:X; auto. apply P in X. destruct (X (proj2 (G c n))). }
    assert (Go : forall c k w e, held e w -> work w = None -> exists i b w', obtain orc c k w = Ret (Some i, b) w' /\ held (handed (Some i) k ++ e) w' /\ work w' = None /\ factor w' = factor w /\ status w' = SOk).
    { intros c k w e H W. unfold obtain, seqm. destruct (Ga c w) as (w' & -> & A & B & C & D). rewrite Gn. do 3 eexists. split; [reflexivity|]. split; [|cbn; repeat split; congruence].
      unfold tidy_but, own in *. cbn [live factor work handed]. rewrite A, B, C, H. cbn [app]. apply Permutation_middle. }
    intros [|] w W H; cbn [lq_exec].
    - apply wp_seq, wp_get. destruct (factor w) as [i|] eqn:F; cbn [is_null]; [|split; auto]. unfold wp, seqm, lib_free, set_factor. destruct (take_in i KQr (live w)) as (r & E2).
      { unfold tidy_but, own in H. rewrite F in H. eapply Permutation_in; [symmetry; exact H|]. left. auto. }
      rewrite E2. cbn [set_live live work]. split; auto. unfold tidy_but, own in *. cbn [live factor work handed app set_live]. rewrite F in H. cbn [handed app] in H. apply Permutation_cons_inv with (i, KQr). rewrite <- H. symmetry. apply take_some. auto.
    - apply wp_seq. unfold lq_solve. apply wp_seq. eapply start_ok; [exact H|]. intros w1 H1 W1 F1. rewrite W in H1. cbn [handed app] in H1. apply wp_seq, wp_get, wp_seq.
      apply wp_weaken with (Q := fun _ w' => held [] w' /\ work w' = None) (E := fun _ => False); [| |intros w' []].
      { destruct (factor w1) as [i|] eqn:F; cbn [is_null]; [split; auto|]. apply wp_seq. destruct (Go CSymbolic KQr w1 [] H1 W1) as (i & b & w' & E1 & A & B & C & D). unfold wp at 1. rewrite E1. cbn [fst]. split; auto.
        unfold tidy_but, own in *. cbn [live factor work]. rewrite A, C, F, B. cbn [handed app]. auto. }
      intros [] w2 (H2 & W2). apply wp_seq, wp_get, wp_seq. apply wp_weaken with (Q := fun _ w' => held [] w' /\ work w' = None) (E := fun _ => False); [| |intros w' []].
      { destruct (factor w2) as [i|] eqn:F; cbn [is_null]; [|split; auto]. eapply wp_touch_factor; [exact H2|exact F|discriminate|]. auto. }
      intros [] w3 (H3 & W3). apply wp_seq. destruct (Ga CNumeric w3) as (w4 & E4 & A4 & B4 & C4 & D4). unfold wp at 1. rewrite E4.
      assert (H4 : held [] w4) by (unfold tidy_but, own in *; rewrite A4, B4, C4; auto). assert (W4 : work w4 = None) by congruence. apply wp_seq.
      destruct (Go CQmult KDense w4 [] H4 W4) as (y & by_ & w5 & E5 & H5 & W5 & C5 & D5). unfold wp at 1. rewrite E5. apply wp_seq.
      destruct (Go CQrSolve KDense w5 _ H5 W5) as (x & bx & w6 & E6 & H6 & W6 & C6 & D6). unfold wp at 1. rewrite E6. apply wp_seq, wp_status. rewrite D6. cbn [stat_ok fst].
      apply wp_seq. eapply wp_touch; [exact H6|reflexivity|discriminate|]. intros _. apply wp_seq. destruct (held_live KQr x KDense _ w6 H6) as (r & E7 & H7). unfold wp at 1, lib_free. rewrite E7.
      apply wp_seq. destruct (held_live KQr y KDense _ _ H7) as (r2 & E8 & H8). unfold wp at 1, lib_free. rewrite E8. split; auto.
  Qed.
End Lq.
Lemma lq_destroy_ok : forall N e w, tidy_but KQr e w -> wp N lq_destroy (fun _ w' => Permutation (live w') e) (fun _ => False) w.
Proof.
  intros N e w H. unfold lq_destroy. apply wp_seq, wp_seq, wp_get. destruct (factor w) as [i|] eqn:F; cbn [is_null].
  - destruct (held_live KQr i KQr e (mkWorld (live w) (fresh w) (status w) (work w) (tick w) None (rset w))) as (r & E & H2).
    { unfold tidy_but, own in *. cbn [live factor work handed app]. rewrite H, F. cbn [handed app]. apply Permutation_middle. }
    cbn [live set_live fresh status work tick rset factor] in *. unfold wp at 1, lib_free. rewrite E. unfold tidy_but, own in H2. cbn [live factor work handed app] in H2.
    unfold wp, lib_finish, seqm, lib_free, set_live. cbn [work live fresh status tick factor rset]. destruct (work w) as [j|]; cbn [handed app] in H2.
    + destruct (take_in j KWork r) as (r2 & E2); [eapply Permutation_in; [symmetry; exact H2|left; auto]|]. rewrite E2. cbn [live]. apply Permutation_cons_inv with (j, KWork). rewrite <- H2. symmetry. apply take_some. auto.
    + exact H2.
  - apply wp_ret. eapply wp_finish; [exact H|]. intros w' H' F' Wn. unfold tidy_but, own in H'. rewrite Wn, F', F in H'. exact H'.
Qed.
Lemma lq_history : forall orc, promise orc -> forall os,
  wp False (runs (lq_exec orc) os 0) (fun n w => n = 0 /\ exists lost, tidy_but KQr lost w /\ length lost <= 2 * length (filter (fun o => match o with LqSolve => true | LqInit => false end) os) /\
    exists w', lq_destroy w = Ret tt w' /\ Permutation (live w') lost) (fun _ => False) constructed.
Proof.
  intros orc P os.
  assert (G : forall os e w, tidy_but KQr e w -> wp False (runs (lq_exec orc) os 0) (fun n w' => n = 0 /\ exists lost, tidy_but KQr (lost ++ e) w' /\ length lost <= 2 * length (filter (fun o => match o with LqSolve => true | LqInit => false end) os)) (fun _ => False) w).
  { clear os. intros os. induction os as [|o os IH]; intros e w H.
    - cbn. split; auto. exists []. auto.
    - pose proof (lq_op_ok orc P False o e w H) as Q. unfold wp in *. cbn [runs]. destruct (lq_exec orc o w) as [[] w'|w'| |]; auto; try contradiction. destruct Q as (e' & H' & L'). specialize (IH _ _ H').
      destruct (runs _ _ _ _) as [m w2|w2| |]; auto. destruct IH as (-> & lost & A & B). split; auto. exists (lost ++ e'). rewrite <- app_assoc. split; auto. rewrite app_length. destruct o; cbn [filter length]; lia. }
  eapply wp_weaken; [apply (G os [] constructed (perm_nil _))| |intros w []]. intros n w (-> & lost & A & B). rewrite app_nil_r in A. split; auto. exists lost. split; auto. split; auto.
  pose proof (lq_destroy_ok False lost w A) as D. unfold wp in D. destruct (lq_destroy w) as [[] w'|w'| |]; try contradiction. eauto.
Qed.
Lemma lq_history_tidy : forall orc, promise orc -> (forall c n, an_work (orc c n) = false /\ an_stat (orc c n) = SOk) -> forall os,
  wp False (runs (lq_exec orc) os 0) (fun n w => n = 0 /\ tidy KQr w /\ exists w', lq_destroy w = Ret tt w' /\ live w' = []) (fun _ => False) constructed.
Proof.
  intros orc P G os. apply wp_weaken with (Q := fun n w => n = 0 /\ tidy KQr w /\ work w = None) (E := fun _ => False); [| |intros w []].
  - apply (runs_inv _ (lq_exec orc) False (fun n w => n = 0 /\ tidy KQr w /\ work w = None) (fun _ => True)).
    + intros o n w _ (-> & H & W). eapply wp_weaken; [apply (lq_op_tidy orc P False G o); auto| |intros w' []]. intros [] w' H'. auto.
    + apply Forall_forall. auto.
    + split; auto. split; auto. apply perm_nil.
  - intros n w (-> & H & W). split; auto. split; auto. pose proof (lq_destroy_ok False [] w H) as D. unfold wp in D. destruct (lq_destroy w) as [[] w'|w'| |]; try contradiction. exists w'. split; auto. apply Permutation_nil. symmetry. auto.
Qed.
Lemma sq_defined : forall orc, promise orc -> gives orc CTranspose -> gives orc CAllocDense -> forall os,
  (forall verbose, In (SqSolve true verbose) os -> works orc CNumeric /\ gives orc CQrSolve) ->
  match runs (sq_exec orc) os 0 constructed with Ret _ _ => True | _ => False end.
Proof.
  intros orc P G1 G2 os H. pose proof (sq_history orc P False os) as Q. unfold wp in Q. destruct (runs _ _ _ _); auto; apply Q; apply Forall_forall; intros [| |norm verbose|entries| |] Ho; cbn [nulls_op]; auto;
  right; (split; [auto|]; split; [auto|]; intros ->; eapply H; eauto).
Qed.
Lemma lc_all : forall orc, promise orc -> forall os,
  match runs (lc_exec orc) os 0 constructed with
  | Ret thrown w => thrown = 0 /\ tidy KFactor w /\ exists w', lc_destroy w = Ret tt w' /\ live w' = []
  | UBnull => ~ (gives orc CAnalyze /\ gives orc CSolve /\ works orc CAmd /\ works orc CChange)
  | Exc _ | UBdead => False
  end.
Proof.
  intros orc P os. pose proof (lc_history orc True P (or_introl Logic.I) os) as Q1. pose proof (fun G => lc_history orc False P (or_intror G) os) as Q2. unfold wp in *. destruct (runs _ _ _ _); auto.
Qed.
Lemma sq_all : forall orc, promise orc -> forall os,
  match runs (sq_exec orc) os 0 constructed with
  | Ret thrown w => exists lost, tidy_but KQr lost w /\ length lost <= 2 * thrown /\ exists w', sq_destroy w = Ret tt w' /\ Permutation (live w') lost
  | UBnull => True
  | Exc _ | UBdead => False
  end.
Proof.
  intros orc P os. pose proof (sq_history orc P True os) as Q. unfold wp in Q. destruct (runs _ _ _ _); auto; apply Q; apply Forall_forall; intros [] _; cbn [nulls_op]; unfold nulls; auto.
Qed.
