(** * Error terms over the reals: weighted errors, derivatives, the gradient of the cost *)
From Coq Require Import Reals Lra Arith Lia List ZArith NArith Bool.
From Verif Require Import Lib_Ring Lib_Real Lib_Res MatrixStack_Model MatrixStack_Spec DesignVar_Base
  Jacobian_Model Jacobian_Spec Jacobian_Proofs Threads_Model Threads_Proofs3 Problem_Model Layout_Model Errors_Model Errors_Spec Errors_SpecR Errors_Proofs.
Import ListNotations.
Open Scope R_scope.

Lemma sqrtWeight_sq : forall useM (t : @fterm R), 0 <= f_weight t (f_sq t) ->
  sqrtWeight sqrt useM t * sqrtWeight sqrt useM t = if useM then f_weight t (f_sq t) else 1.
Proof.
  intros useM t H. unfold sqrtWeight, getRawSquaredError. destruct useM.
  - apply sqrt_sqrt; auto.
  - cbn. ring.
Qed.

Lemma weighted_norm : forall useM (t0 : @fterm R) e, let t := updateRawSquaredError e t0 in
  0 <= f_weight t (f_sq t) ->
  vdot (f_dim t) (getWeightedError sqrt useM t) (getWeightedError sqrt useM t) = getSquaredError useM t.
Proof.
  intros useM t0 e t H.
  transitivity (vdot (f_dim t) (mvmul (f_dim t) (mtr (f_S t)) (f_error t)) (mvmul (f_dim t) (mtr (f_S t)) (f_error t))
     * (sqrtWeight sqrt useM t * sqrtWeight sqrt useM t)).
  - unfold vdot. change Rmult with (@kmul R RRing). rewrite <- (ksum_mul_r (R:=RRing)). apply ksum_ext; intros i _.
    unfold getWeightedError. cbn. ring.
  - rewrite sqrtWeight_sq by auto. unfold getSquaredError, getWeightedSquaredError, getRawSquaredError, getCurrentMEstimatorWeight.
    change (vdot (f_dim t) (mvmul (f_dim t) (mtr (f_S t)) (f_error t)) (mvmul (f_dim t) (mtr (f_S t)) (f_error t))) with (f_sq t).
    destruct useM; cbn; ring.
Qed.

Lemma mvmul_der : forall n m (A : mat R) (e : R -> vec R) (e' : vec R),
  (forall i, (i < n)%nat -> derivable_pt_lim (fun h => e h i) 0 (e' i)) ->
  derivable_pt_lim (fun h => mvmul n A (e h) m) 0 (mvmul n A e' m).
Proof.
  intros. unfold mvmul. apply (der_ksum n (fun k h => kmul (A m k) (e h k))). intros. cbn. apply der_scal. auto.
Qed.

(** C17: the weighted Jacobian is the derivative of the weighted error *)
Lemma weighted_jacobian_is_derivative : forall useM (t : @fterm R) al evs cs fs cs' gs dir (e : R -> vec R),
  (0 < al)%nat -> (N.of_nat (f_dim t) < 65536)%N ->
  cruns (f_dim t) al [] evs cs fs ->
  cruns (f_dim t) al [] (below (FMat (f_dim t) (f_dim t) (mscale (sqrtWeight sqrt useM t) (mtr (f_S t)))) evs) cs' gs ->
  wf_dvs (event_dvs evs) ->
  (forall i, (i < f_dim t)%nat -> derivable_pt_lim (fun h => e h i) 0 (Jdir cs dir i)) ->
  exists c, jc_run _ sp_addJ al (sp_init (f_dim t)) (weighted_calls sqrt useM t (map cop_of evs)) = Ok c /\
    forall i, (i < f_dim t)%nat ->
      derivable_pt_lim (fun h => getWeightedError sqrt useM (setError (e h) t) i) 0 (spdir (jc_store c) dir i).
Proof.
  intros useM t al evs cs fs cs' gs dir e Hal Hn H H' W D.
  rewrite weighted_calls_events.
  destruct (spdir_run (f_dim t) al _ cs' gs Hal Hn H') as (c & E & _ & S).
  { rewrite below_events. exact W. }
  exists c. split; auto. intros i Hi. rewrite S by auto.
  rewrite (weighted_jacobian_dir sqrt useM t al evs cs fs cs' gs dir i H H' Hi).
  unfold getWeightedError. cbn [setError f_dim f_S f_error].
  eapply der_eq. 2:{ apply (der_scal_r (fun h => mvmul (f_dim t) (mtr (f_S t)) (e h) i) 0 (mvmul (f_dim t) (mtr (f_S t)) (Jdir cs dir) i) (sqrtWeight sqrt useM t)). apply mvmul_der. exact D. }
  cbn. ring.
Qed.

(** derivative of the quadratic form *)
Lemma quad_der : forall n (S : mat R) (e : R -> vec R) (e' : vec R),
  (forall i, (i < n)%nat -> derivable_pt_lim (fun h => e h i) 0 (e' i)) ->
  derivable_pt_lim (fun h => quad n (mmul n S (mtr S)) (e h)) 0
    (2 * ksum n (fun i => ksum n (fun j => (e 0 i * mmul n S (mtr S) i j) * e' j))).
Proof.
  intros n S e e' D.
  eapply der_ext. { intros h. apply (gram_quad n S (e h)). }
  eapply der_eq. 2:{ unfold vdot. apply (der_ksum n (fun k h => kmul (mvmul n (mtr S) (e h) k) (mvmul n (mtr S) (e h) k))).
    intros k Hk. apply der_mul; apply mvmul_der; exact D. }
  etransitivity. 2:{ apply (f_equal (Rmult 2)). exact (bilinear n S (e 0) e'). }
  change Rmult with (@kmul R RRing). rewrite <- (ksum_mul_l (R:=RRing)). apply ksum_ext; intros. cbn. ring.
Qed.

(** ** C19 *)
Section C19.
Variable al : nat.
Variables (useM dense_ : bool) (numOpt : nat).
Hypothesis Hal : (0 < al)%nat.

Lemma squared_gradient_is_derivative : forall dir t evs e rho,
  squared_term_ok al useM numOpt dir t evs e rho ->
  (forall J, exists J', addGradientForErrorTerm sqrt al useM dense_ numOpt (e 0) t (map cop_of evs) J = Ok J' /\
     forall j, (j < numOpt)%nat -> J' j = J j + result_or_zero (addGradientForErrorTerm sqrt al useM dense_ numOpt (e 0) t (map cop_of evs) zerov) j) /\
  derivable_pt_lim (fun h => rho (quad (f_dim t) (invR t) (e h))) 0
    (ksum numOpt (fun j => result_or_zero (addGradientForErrorTerm sqrt al useM dense_ numOpt (e 0) t (map cop_of evs) zerov) j * dir j)).
Proof.
  intros dir t evs e rho (Hn & (cs & fs & H & D) & (cs' & gs & H') & W & WC & Hw & Hr).
  set (t1 := updateRawSquaredError (e 0) t) in *.
  destruct (squared_term_gradient sqrt useM dense_ numOpt al t1 evs cs fs cs' gs Hal Hn H H' W WC) as (g & G1 & G2).
  assert (G0 : forall j, (j < numOpt)%nat -> result_or_zero (addGradientForErrorTerm sqrt al useM dense_ numOpt (e 0) t (map cop_of evs) zerov) j = g j).
  { intros j Hj. unfold addGradientForErrorTerm. fold t1. destruct (G1 zerov) as (J' & E & Q). rewrite E. cbn [result_or_zero].
    rewrite Q by auto. unfold zerov. cbn. ring. }
  split.
  - intros J. destruct (G1 J) as (J' & E & Q). exists J'. split; [exact E|]. intros j Hj. rewrite G0 by auto. apply Q; auto.
  - eapply der_eq. 2:{ apply (der_comp rho (fun h => quad (f_dim t) (invR t) (e h))). apply quad_der. exact D. exact Hr. }
    transitivity (ksum numOpt (fun j => kmul (g j) (dir j))).
    2:{ apply ksum_ext; intros. rewrite G0 by auto. reflexivity. }
    rewrite (G2 dir).
    assert (Es : f_sq t1 = quad (f_dim t) (invR t) (e 0)) by (exact (raw_is_quad t (e 0))).
    assert (SW : (if useM then f_weight t (quad (f_dim t) (invR t) (e 0)) else 1) = sqrtWeight sqrt useM t1 * sqrtWeight sqrt useM t1).
    { destruct useM.
      - rewrite (sqrtWeight_sq true t1); rewrite Es; auto.
      - unfold sqrtWeight. cbn. ring. }
    rewrite SW. change (invR t1) with (mmul (f_dim t) (f_S t) (mtr (f_S t))). change (f_error t1) with (e 0). change (f_dim t1) with (f_dim t).
    cbn [kmul kadd k1 RRing]. ring.
Qed.

Lemma nonsquared_gradient_is_derivative : forall dir t evs e rho,
  nonsquared_term_ok al useM numOpt dir t evs e rho ->
  (forall J, exists J', addGradientNS al useM dense_ numOpt t (map cop_of evs) J = Ok J' /\
     forall j, (j < numOpt)%nat -> J' j = J j + result_or_zero (addGradientNS al useM dense_ numOpt t (map cop_of evs) zerov) j) /\
  derivable_pt_lim (fun h => rho (n_w t * e h)) 0
    (ksum numOpt (fun j => result_or_zero (addGradientNS al useM dense_ numOpt t (map cop_of evs) zerov) j * dir j)).
Proof.
  intros dir t evs e rho ((cs & fs & H & D) & (cs' & gs & H') & W & WC & Hw & Hr).
  destruct (nonsquared_term_gradient useM dense_ numOpt al t evs cs fs cs' gs Hal H H' W WC) as (g & G1 & G2).
  assert (G0 : forall j, (j < numOpt)%nat -> result_or_zero (addGradientNS al useM dense_ numOpt t (map cop_of evs) zerov) j = g j).
  { intros j Hj. destruct (G1 zerov) as (J' & E & Q). rewrite E. cbn [result_or_zero].
    rewrite Q by auto. unfold zerov. cbn. ring. }
  split.
  - intros J. destruct (G1 J) as (J' & E & Q). exists J'. split; [exact E|]. intros j Hj. rewrite G0 by auto. apply Q; auto.
  - eapply der_eq. 2:{ apply (der_comp rho (fun h => n_w t * e h)). apply der_scal. exact D. exact Hr. }
    transitivity (ksum numOpt (fun j => kmul (g j) (dir j))).
    2:{ apply ksum_ext; intros. rewrite G0 by auto. reflexivity. }
    rewrite (G2 dir). unfold ns_factor, getRawError. destruct useM.
    + rewrite Hw by auto. cbn. ring.
    + cbn. ring.
Qed.

(** the whole problem: terms 0..nNS-1 are non-squared, nNS..numTerms-1 squared *)
Lemma total_gradient_is_derivative :
  forall (E : Type) dir nNS numTerms nThreads
    (tN : nat -> @nterm R) (evN : nat -> list (@event R)) (eN : nat -> R -> R) (rhoN : nat -> R -> R)
    (tS : nat -> @fterm R) (evS : nat -> list (@event R)) (eS : nat -> R -> vec R) (rhoS : nat -> R -> R) g,
  (Z.of_nat numTerms <= 2147483647)%Z -> (0 < nThreads)%nat ->
  (forall i, (i < nNS)%nat -> nonsquared_term_ok al useM numOpt dir (tN i) (evN i) (eN i) (rhoN i)) ->
  (forall i, (i < numTerms - nNS)%nat -> squared_term_ok al useM numOpt dir (tS i) (evS i) (eS i) (rhoS i)) ->
  pm_computeGradient E nNS
    (fun i => result_or_zero (addGradientNS al useM dense_ numOpt (tN i) (map cop_of (evN i)) zerov))
    (fun i => result_or_zero (addGradientForErrorTerm sqrt al useM dense_ numOpt (eS i 0) (tS i) (map cop_of (evS i)) zerov))
    numTerms nThreads g ->
  derivable_pt_lim (fun h => ksum numTerms (fun i =>
      if (i <? nNS)%nat then rhoN i (n_w (tN i) * eN i h)
      else rhoS (i - nNS)%nat (quad (f_dim (tS (i - nNS)%nat)) (invR (tS (i - nNS)%nat)) (eS (i - nNS)%nat h)))) 0
    (ksum numOpt (fun j => g j * dir j)).
Proof.
  intros E dir nNS numTerms nThreads tN evN eN rhoN tS evS eS rhoS g HT HTh HN HS Hg.
  match type of Hg with pm_computeGradient _ _ ?a ?b _ _ _ =>
    destruct (@pm_computeGradient_ok R RRing E nNS a b numTerms nThreads HT HTh) as [_ G] end.
  specialize (G g Hg).
  eapply der_eq. 2:{ apply (der_ksum numTerms (fun i h =>
      if (i <? nNS)%nat then rhoN i (n_w (tN i) * eN i h)
      else rhoS (i - nNS)%nat (quad (f_dim (tS (i - nNS)%nat)) (invR (tS (i - nNS)%nat)) (eS (i - nNS)%nat h)))
    (fun i => ksum numOpt (fun j => (if (i <? nNS)%nat
         then result_or_zero (addGradientNS al useM dense_ numOpt (tN i) (map cop_of (evN i)) zerov)
         else result_or_zero (addGradientForErrorTerm sqrt al useM dense_ numOpt (eS (i - nNS)%nat 0) (tS (i - nNS)%nat) (map cop_of (evS (i - nNS)%nat)) zerov)) j * dir j))).
    intros i Hi. destruct (Nat.ltb_spec i nNS).
    - apply (nonsquared_gradient_is_derivative dir (tN i) (evN i) (eN i) (rhoN i)). apply HN; auto.
    - apply (squared_gradient_is_derivative dir (tS (i - nNS)%nat) (evS (i - nNS)%nat) (eS (i - nNS)%nat) (rhoS (i - nNS)%nat)). apply HS. lia. }
  rewrite (ksum_swap (R:=RRing)). apply ksum_ext; intros j Hj. rewrite G.
  change Rmult with (@kmul R RRing). rewrite (ksum_mul_r (R:=RRing)). reflexivity.
Qed.
End C19.

(** scaling the gradient = scaling the direction *)
Lemma scaling_adjoint : forall (h : dvheap R) dvs (g u : vec R) j,
  applyDesignVariableScaling h dvs g j * u j = g j * applyDesignVariableScaling h dvs u j.
Proof.
  intros h dvs. assert (C : exists s : vec R, forall g j, applyDesignVariableScaling h dvs g j = g j * s j).
  { induction dvs as [|v dvs (s & IH)]; cbn [applyDesignVariableScaling].
    - exists (fun _ => 1). intros; ring.
    - exists (fun j => (if (Z.to_nat (dv_col (h v)) <=? j)%nat && (j <? Z.to_nat (dv_col (h v)) + dv_dim (h v))%nat then dv_scaling (h v) else 1) * s j).
      intros g j. rewrite IH. unfold scale_block. destruct (_ && _)%bool; cbn; ring. }
  destruct C as (s & C). intros. rewrite !C. ring.
Qed.

Lemma scaled_total_gradient :
  forall al useM dense_ numOpt, (0 < al)%nat ->
  forall (E : Type) (heap : dvheap R) (dvs : list nat) (u : vec R) nNS numTerms nThreads
    (tN : nat -> @nterm R) (evN : nat -> list (@event R)) (eN : nat -> R -> R) (rhoN : nat -> R -> R)
    (tS : nat -> @fterm R) (evS : nat -> list (@event R)) (eS : nat -> R -> vec R) (rhoS : nat -> R -> R) g,
  let dir := applyDesignVariableScaling heap dvs u in
  (Z.of_nat numTerms <= 2147483647)%Z -> (0 < nThreads)%nat ->
  (forall i, (i < nNS)%nat -> nonsquared_term_ok al useM numOpt dir (tN i) (evN i) (eN i) (rhoN i)) ->
  (forall i, (i < numTerms - nNS)%nat -> squared_term_ok al useM numOpt dir (tS i) (evS i) (eS i) (rhoS i)) ->
  pm_computeGradient E nNS
    (fun i => result_or_zero (addGradientNS al useM dense_ numOpt (tN i) (map cop_of (evN i)) zerov))
    (fun i => result_or_zero (addGradientForErrorTerm sqrt al useM dense_ numOpt (eS i 0) (tS i) (map cop_of (evS i)) zerov))
    numTerms nThreads g ->
  derivable_pt_lim (fun h => ksum numTerms (fun i =>
      if (i <? nNS)%nat then rhoN i (n_w (tN i) * eN i h)
      else rhoS (i - nNS)%nat (quad (f_dim (tS (i - nNS)%nat)) (invR (tS (i - nNS)%nat)) (eS (i - nNS)%nat h)))) 0
    (ksum numOpt (fun j => applyDesignVariableScaling heap dvs g j * u j)).
Proof.
  intros al useM dense_ numOpt Hal E heap dvs u nNS numTerms nThreads tN evN eN rhoN tS evS eS rhoS g dir HT HTh HN HS Hg.
  pose proof (total_gradient_is_derivative al useM dense_ numOpt Hal E dir nNS numTerms nThreads tN evN eN rhoN tS evS eS rhoS g HT HTh HN HS Hg) as D.
  eapply der_eq; [|exact D]. apply ksum_ext; intros j _. symmetry. apply scaling_adjoint.
Qed.
