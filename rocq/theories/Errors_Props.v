(** * Properties C17 - C20: error terms, M-estimators, gradient of the cost, data association *)
From Coq Require Import Reals Lra Arith Lia List ZArith NArith Bool.
From Verif Require Import Lib_Ring Lib_Real Lib_Res MatrixStack_Model MatrixStack_Spec DesignVar_Base
  Jacobian_Model Jacobian_Spec Jacobian_Proofs Threads_Model Problem_Model Layout_Model Errors_Model Errors_Spec Errors_SpecR
  Errors_Proofs Errors_ProofsR MEstimator_Model MEstimator_Spec MEstimator_Proofs.
Import ListNotations.

(** ** C17 *)
(** After setInvR(W) (whatever square root S with S S^T = W is computed) and an update with error e,
    the raw squared error is e^T W e and getInvR returns W. *)
Theorem C17_squared_error_is_quadratic_form :
  forall (K : Type) (R : CRing K) (sqrtm : mat K -> mat K) (W : mat K) (t : @fterm K) (e : vec K),
  meq (f_dim t) (f_dim t) (mmul (f_dim t) (sqrtm W) (mtr (sqrtm W))) W ->
  getRawSquaredError (updateRawSquaredError e (setInvR sqrtm W t)) = quad (f_dim t) W e /\
  meq (f_dim t) (f_dim t) (invR (updateRawSquaredError e (setInvR sqrtm W t))) W.
Proof. exact (fun K R => @raw_after_setInvR K R). Qed.
Print Assumptions C17_squared_error_is_quadratic_form.

(** With a square root set directly the matrix is S S^T. *)
Theorem C17_squared_error_from_square_root :
  forall (K : Type) (R : CRing K) (t : @fterm K) (e : vec K) (S : mat K),
  getRawSquaredError (updateRawSquaredError e (setSqrtInvR S t)) = quad (f_dim t) (mmul (f_dim t) S (mtr S)) e.
Proof. exact (fun K R t e S => @raw_is_quad K R (setSqrtInvR S t) e). Qed.
Print Assumptions C17_squared_error_from_square_root.

(** The squared norm of the weighted error is the (weighted or raw) squared error. *)
Theorem C17_weighted_error_norm :
  forall (useM : bool) (t0 : @fterm R) (e : vec R), let t := updateRawSquaredError e t0 in
  (0 <= f_weight t (f_sq t))%R ->
  vdot (f_dim t) (getWeightedError sqrt useM t) (getWeightedError sqrt useM t) = getSquaredError useM t.
Proof. exact weighted_norm. Qed.
Print Assumptions C17_weighted_error_norm.

(** If the term's evaluateJacobians adds the derivative of the error then getWeightedJacobians adds the
    derivative of the weighted error with the weight held fixed ([setError] leaves the stored squared
    error, hence the weight, as it is). *)
Theorem C17_weighted_jacobian_is_derivative :
  forall useM (t : @fterm R) al evs cs fs cs' gs dir (e : R -> vec R),
  (0 < al)%nat -> (N.of_nat (f_dim t) < 65536)%N ->
  cruns (f_dim t) al [] evs cs fs ->
  cruns (f_dim t) al [] (below (FMat (f_dim t) (f_dim t) (mscale (sqrtWeight sqrt useM t) (mtr (f_S t)))) evs) cs' gs ->
  wf_dvs (event_dvs evs) ->
  (forall i, (i < f_dim t)%nat -> derivable_pt_lim (fun h => e h i) 0 (Jdir cs dir i)) ->
  exists c, jc_run _ sp_addJ al (sp_init (f_dim t)) (weighted_calls sqrt useM t (map cop_of evs)) = Ok c /\
    forall i, (i < f_dim t)%nat ->
      derivable_pt_lim (fun h => getWeightedError sqrt useM (setError (e h) t) i) 0 (spdir (jc_store c) dir i).
Proof. exact weighted_jacobian_is_derivative. Qed.
Print Assumptions C17_weighted_jacobian_is_derivative.

(** ExpressionErrorTerm multiplies with the square root untransposed: the value is e^T (S^T S) e ... *)
Theorem C17_expression_error_term_partial :
  forall (K : Type) (R : CRing K) (t : @fterm K) (e : vec K),
  getRawSquaredError (updateRawSquaredError_expr e t) = quad (f_dim t) (mmul (f_dim t) (mtr (f_S t)) (f_S t)) e /\
  (meq (f_dim t) (f_dim t) (mmul (f_dim t) (mtr (f_S t)) (f_S t)) (invR t) ->
   getRawSquaredError (updateRawSquaredError_expr e t) = quad (f_dim t) (invR t) e).
Proof.
  exact (fun K R t e => conj (@expr_is_quad_of_transpose K R t e)
    (fun H => eq_trans (@expr_is_quad_of_transpose K R t e) (@quad_ext K R _ _ _ e H))).
Qed.
Print Assumptions C17_expression_error_term_partial.

(** ... which differs from e^T invR e for a square root that is not symmetric (lower triangular, as a
    Cholesky factor is): full statement "forall t e, raw error = quad invR e" is false. *)
Theorem C17_expression_error_term_refuted :
  ~ forall (t : @fterm Z) (e : vec Z),
    getRawSquaredError (updateRawSquaredError_expr e t) = quad (f_dim t) (invR t) e.
Proof.
  intros H.
  specialize (H (setSqrtInvR (fun i j => if (j <=? i)%nat then 1%Z else 0%Z) (fterm_init 2)) (fun i => match i with O => 1%Z | _ => 0%Z end)).
  vm_compute in H. discriminate.
Qed.
Print Assumptions C17_expression_error_term_refuted.

(** ** C18 *)
Theorem C18_weight_positive : forall m s, tuned m -> (0 <= s)%R -> (0 < getWeight m s)%R.
Proof. exact weight_pos. Qed.
Print Assumptions C18_weight_positive.
Theorem C18_weight_nonincreasing : forall m s s', tuned m -> (0 <= s)%R -> (s <= s')%R -> (getWeight m s' <= getWeight m s)%R.
Proof. exact weight_antitone. Qed.
Print Assumptions C18_weight_nonincreasing.
Theorem C18_weight_is_derivative_of_loss : forall m s, tuned m -> (0 <= s)%R -> derivable_pt_lim (loss m) s (getWeight m s).
Proof. exact loss_derivative. Qed.
Print Assumptions C18_weight_is_derivative_of_loss.
Theorem C18_unit_at_zero_and_bounded :
  forall m, match m with NoM => True | Cauchy a | Huber a => (0 < a)%R | _ => False end ->
  getWeight m 0%R = 1%R /\ forall s, (0 <= s)%R -> (getWeight m s <= 1)%R.
Proof. exact weight_one. Qed.
Print Assumptions C18_unit_at_zero_and_bounded.
(** The Blake-Zisserman parameter is solved so that the weight at the pCut quantile is wCut. *)
Theorem C18_blake_zisserman_cut : forall quantile df pCut wCut, (0 < wCut < 1)%R ->
  tuned (makeBlakeZisserman quantile df pCut wCut) /\
  getWeight (makeBlakeZisserman quantile df pCut wCut) (quantile df pCut) = wCut /\
  (forall s, (0 <= s)%R -> (getWeight (makeBlakeZisserman quantile df pCut wCut) s < 1)%R).
Proof. exact blake_zisserman_cut. Qed.
Print Assumptions C18_blake_zisserman_cut.

(** ** C19 *)
(** One squared term: what addGradientForErrorTerm adds to the gradient is the derivative of its loss
    along every direction (with dense or sparse container, with or without M-estimator). *)
Theorem C19_squared_term : forall al useM dense_ numOpt, (0 < al)%nat ->
  forall dir t evs e rho, squared_term_ok al useM numOpt dir t evs e rho ->
  (forall J, exists J', addGradientForErrorTerm sqrt al useM dense_ numOpt (e 0%R) t (map cop_of evs) J = Ok J' /\
     forall j, (j < numOpt)%nat -> J' j = (J j + result_or_zero (addGradientForErrorTerm sqrt al useM dense_ numOpt (e 0%R) t (map cop_of evs) zerov) j)%R) /\
  derivable_pt_lim (fun h => rho (quad (f_dim t) (invR t) (e h))) 0
    (ksum numOpt (fun j => (result_or_zero (addGradientForErrorTerm sqrt al useM dense_ numOpt (e 0%R) t (map cop_of evs) zerov) j * dir j)%R)).
Proof. exact squared_gradient_is_derivative. Qed.
Print Assumptions C19_squared_term.
Theorem C19_nonsquared_term : forall al useM dense_ numOpt, (0 < al)%nat ->
  forall dir t evs e rho, nonsquared_term_ok al useM numOpt dir t evs e rho ->
  (forall J, exists J', addGradientNS al useM dense_ numOpt t (map cop_of evs) J = Ok J' /\
     forall j, (j < numOpt)%nat -> J' j = (J j + result_or_zero (addGradientNS al useM dense_ numOpt t (map cop_of evs) zerov) j)%R) /\
  derivable_pt_lim (fun h => rho (n_w t * e h)%R) 0
    (ksum numOpt (fun j => (result_or_zero (addGradientNS al useM dense_ numOpt t (map cop_of evs) zerov) j * dir j)%R)).
Proof. exact nonsquared_gradient_is_derivative. Qed.
Print Assumptions C19_nonsquared_term.

(** All terms, any number of threads and any interleaving, then the final scaling: moving the scaled
    unknowns along u moves design variable d by scaling(d) * u (C14), and the gradient times u is the
    derivative of the total cost.  [useM = false] and rho = identity is the unweighted cost. *)
Theorem C19_gradient_is_derivative_of_cost :
  forall al useM dense_ numOpt, (0 < al)%nat ->
  forall (E : Type) (heap : dvheap R) (dvs : list nat) (u : vec R) nNS numTerms nThreads
    (tN : nat -> @nterm R) (evN : nat -> list (@event R)) (eN : nat -> R -> R) (rhoN : nat -> R -> R)
    (tS : nat -> @fterm R) (evS : nat -> list (@event R)) (eS : nat -> R -> vec R) (rhoS : nat -> R -> R) g,
  let dir := applyDesignVariableScaling heap dvs u in
  (Z.of_nat numTerms <= 2147483647)%Z -> (0 < nThreads)%nat ->
  (forall i, (i < nNS)%nat -> nonsquared_term_ok al useM numOpt dir (tN i) (evN i) (eN i) (rhoN i)) ->
  (forall i, (i < numTerms - nNS)%nat -> squared_term_ok al useM numOpt dir (tS i) (evS i) (eS i) (rhoS i)) ->
  pm_computeGradient E nNS
    (fun i => result_or_zero (addGradientNS al useM dense_ numOpt (tN i) (map cop_of (evN i)) zerov))
    (fun i => result_or_zero (addGradientForErrorTerm sqrt al useM dense_ numOpt (eS i 0%R) (tS i) (map cop_of (evS i)) zerov))
    numTerms nThreads g ->
  derivable_pt_lim (fun h => ksum numTerms (fun i =>
      if (i <? nNS)%nat then rhoN i (n_w (tN i) * eN i h)%R
      else rhoS (i - nNS)%nat (quad (f_dim (tS (i - nNS)%nat)) (invR (tS (i - nNS)%nat)) (eS (i - nNS)%nat h)))) 0
    (ksum numOpt (fun j => (applyDesignVariableScaling heap dvs g j * u j)%R)).
Proof. exact scaled_total_gradient. Qed.
Print Assumptions C19_gradient_is_derivative_of_cost.

(** With an M-estimator the gradient is the derivative of the robust loss of C18 and not of the weighted
    squared error w(s) s that evaluateError reports: for Cauchy (sigma2 = 1) at s = 1 the latter does
    not have derivative w(1). *)
Theorem C19_reported_weighted_error_refuted :
  ~ (forall m s, tuned m -> (0 <= s)%R -> derivable_pt_lim (fun s => (getWeight m s * s)%R) s (getWeight m s)).
Proof. exact (fun H => cauchy_reported_error_not_loss (H (Cauchy 1) 1%R Rlt_0_1 Rle_0_1)). Qed.
Print Assumptions C19_reported_weighted_error_refuted.

(** ** C20 *)
(** What callback() hands to setWeight are the logarithms of the normalised weights
    (full statement, false below: the stored weights themselves are >= 0 and sum to one). *)
Theorem C20_exponentials_are_normalised_partial : forall lambda sq, sq <> [] ->
  map exp (callback_group lambda sq) =
    map (fun s => (exp (- lambda / 2 * s) / rsum (map (fun s => exp (- lambda / 2 * s)) sq))%R) sq /\
  rsum (map exp (callback_group lambda sq)) = 1%R.
Proof. exact callback_softmax. Qed.
Print Assumptions C20_exponentials_are_normalised_partial.
(** the value subtracted before exponentiating is the largest log weight: no exponential exceeds 1 *)
Theorem C20_no_overflow : forall sf sq, sq <> [] ->
  In (max_log_weight sf sq) (log_weights sf sq) /\ forall x, In x (log_weights sf sq) -> (exp (x - max_log_weight sf sq) <= 1)%R.
Proof. exact max_log_weight_ok. Qed.
Print Assumptions C20_no_overflow.
(** the stored weights never sum to one, and all are negative for groups of two or more *)
Theorem C20_stored_weights_refuted :
  (forall lambda sq, (rsum (callback_group lambda sq) <= 0)%R) /\
  (forall lambda sq, (2 <= length sq)%nat -> Forall (fun w => (w < 0)%R) (callback_group lambda sq)).
Proof. exact (conj stored_weights_sum stored_weights_not_positive). Qed.
Print Assumptions C20_stored_weights_refuted.

(** ** examples *)
(** C17: S = [[1,0],[1,1]], e = (1,0): raw error 1 = e^T S S^T e, the expression error term gives 2 *)
Example C17_example :
  let t := setSqrtInvR (fun i j => if (j <=? i)%nat then 1%Z else 0%Z) (fterm_init 2) in
  let e := fun i => match i with O => 1%Z | _ => 0%Z end in
  getRawSquaredError (updateRawSquaredError e t) = 1%Z /\ quad 2 (invR t) e = 1%Z /\
  getRawSquaredError (updateRawSquaredError_expr e t) = 2%Z.
Proof. vm_compute. auto. Qed.
(** an invR with an exact square root of that shape *)
Example C17_example_setInvR :
  let W := fun i j => match i, j with 1%nat, 1%nat => 2%Z | _, _ => 1%Z end in
  let sqrtm := fun (_ : mat Z) i j => if (j <=? i)%nat then 1%Z else 0%Z in
  meq 2 2 (mmul 2 (sqrtm W) (mtr (sqrtm W))) W /\
  getRawSquaredError (updateRawSquaredError (fun i => Z.of_nat i + 1)%Z (setInvR sqrtm W (fterm_init 2))) = 13%Z.
Proof.
  split; [|reflexivity]. intros [|[|i]] [|[|j]] Hi Hj; try lia; reflexivity.
Qed.
(** C18: Huber with k = 2 at s = 16 *)
Example C18_example : tuned (Huber 2) /\ getWeight (Huber 2) 16%R = (1/2)%R /\ getWeight (Huber 2) 3%R = 1%R.
Proof. exact huber_example. Qed.

(** C19: a term with error 3 x - 5 in the one-dimensional variable x = 1 (column 0), S = 2, Cauchy *)
Definition ex_dv : dvar R := mkDv 0 true 0%Z 0%Z 1 1%R.
Definition ex_evs : list (@event R) := [EAdd ex_dv 1 (fun _ _ => 3%R)].
Definition ex_term : @fterm R := setMEstimatorPolicy (getWeight (Cauchy 1)) (setSqrtInvR (fun _ _ => 2%R) (fterm_init 1)).
Definition ex_err : R -> vec R := fun h _ => (3 * (1 + h) - 5)%R.
Example C19_example : forall useM,
  squared_term_ok 8 useM 1 (fun _ => 1%R) ex_term ex_evs ex_err (if useM then loss (Cauchy 1) else fun s => s) /\
  quad 1 (invR ex_term) (ex_err 0%R) = 16%R.
Proof.
  intros useM.
  assert (Q : forall h, quad 1 (invR ex_term) (ex_err h) = (4 * (3 * (1 + h) - 5) * (3 * (1 + h) - 5))%R).
  { intros h. unfold quad, invR, ex_term, ex_err, mmul, mtr. cbn. ring. }
  assert (Q0 : quad 1 (invR ex_term) (ex_err 0%R) = 16%R) by (rewrite Q; ring).
  assert (F : forall f, fits (K:=R) 1 8 [FMat 1 1 f]) by (intros; repeat split; cbn; lia).
  split; [|exact Q0]. split; [cbn; lia|]. split; [|split; [|split; [|split; [|split]]]].
  - eexists _, _. split. { constructor. reflexivity. constructor. }
    intros i Hi. assert (i = O) by (cbn in Hi; lia). subst i.
    apply der_eq with (l := (3 * (0 + 1) - 0)%R).
    + unfold Jdir, mmul, ksum. cbn. ring.
    + unfold ex_err. apply der_minus; [apply der_scal; apply der_plus; [apply der_const|apply der_id]|apply der_const].
  - eexists _, _. constructor. reflexivity. apply F. constructor. reflexivity. constructor. constructor.
  - split; [|split]; cbn.
    + intros d d' [<-|[]] [<-|[]]; auto.
    + intros d [<-|[]]; cbn; lia.
    + intros d d' [<-|[]] [<-|[]]; auto.
  - intros d [<-|[]] _. cbn. lia.
  - intros _. change (0 <= getWeight (Cauchy 1) (quad 1 (invR ex_term) (ex_err 0%R)))%R. rewrite Q0. left. apply (weight_pos (Cauchy 1)); cbn; lra.
  - change (f_dim ex_term) with 1%nat. rewrite Q0. destruct useM. apply (loss_derivative (Cauchy 1)); cbn; lra. apply der_id.
Qed.
Example C20_example : [0%R; 2%R] <> [] /\ (2 <= length [0%R; 2%R])%nat.
Proof. split; [discriminate|cbn; lia]. Qed.
