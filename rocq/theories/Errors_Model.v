(** * Model of the error terms and of the gradient of the cost

    aslam_backend/include/aslam/backend/ErrorTerm.hpp L40-200 and implementation/ErrorTerm.hpp
    (ErrorTermFs), src/ErrorTermDs.cpp (the same formulas with a dynamic size),
    ScalarNonSquaredErrorTerm.{hpp,cpp}, aslam_backend_expressions ExpressionErrorTerm.hpp,
    ErrorTermEuclidean.cpp, aslam_backend/src/util/ProblemManager.cpp L140-169. *)
From Coq Require Import Arith Lia List ZArith Bool.
From Verif Require Import Lib_Ring Lib_Res MatrixStack_Model DesignVar_Base Jacobian_Model.
Import ListNotations.

Section Errors.
Context {K : Type} {R : CRing K}.
(** std::sqrt *)
Variable ksqrt : K -> K.

(** the state of an error term: dimension, _error, _sqrtInvR, _squaredError and the weight function
    of its M-estimator (MEstimator_Model.v) *)
(* ErrorTerm.hpp L192-201 and the members of ErrorTermFs and ErrorTermDs *)
Record fterm := mkF { f_dim : nat; f_error : vec K; f_S : mat K; f_sq : K; f_weight : K -> K }.

(** constructor ErrorTermFs(dim), implementation/ErrorTerm.hpp L31-37, ErrorTerm.cpp L8-12: identity
    square root, squared error 0, NoMEstimator *)
Definition fterm_init (n : nat) : fterm := mkF n (fun _ => k0) mid k0 (fun _ => k1).
(** setError, L118-123; setSqrtInvR, L156-161; setInvR, L125-134: [sqrtm] is
    sm::eigen::computeMatrixSqrt (external); setMEstimatorPolicy, ErrorTerm.cpp L32-35 *)
Definition setError (e : vec K) (t : fterm) : fterm := mkF (f_dim t) e (f_S t) (f_sq t) (f_weight t).
(* same code: L118-123, L156-161, L125-134, ErrorTerm.cpp L32-35 *)
Definition setSqrtInvR (S : mat K) (t : fterm) : fterm := mkF (f_dim t) (f_error t) S (f_sq t) (f_weight t).
(* same code: L118-123, L156-161, L125-134, ErrorTerm.cpp L32-35 *)
Definition setInvR (sqrtm : mat K -> mat K) (invR : mat K) (t : fterm) : fterm := setSqrtInvR (sqrtm invR) t.
(* same code: L118-123, L156-161, L125-134, ErrorTerm.cpp L32-35 *)
Definition setMEstimatorPolicy (w : K -> K) (t : fterm) : fterm := mkF (f_dim t) (f_error t) (f_S t) (f_sq t) w.
(** invR(), getInvR, vsInvR, L55-59, L136-146 *)
Definition invR (t : fterm) : mat K := mmul (f_dim t) (f_S t) (mtr (f_S t)).
(** evaluateChiSquaredError, L169-174 *)
Definition evaluateChiSquaredError (t : fterm) : K :=
  let e := mvmul (f_dim t) (mtr (f_S t)) (f_error t) in vdot (f_dim t) e e.

(** updateRawSquaredError, ErrorTerm.hpp L51-53, for a term whose evaluateErrorImplementation sets the
    error vector and returns evaluateChiSquaredError() (ErrorTermEuclidean.cpp L49-56 with
    e = t - prior, ErrorTermTransformation.cpp, the terms of the tests) *)
Definition updateRawSquaredError (e : vec K) (t : fterm) : fterm :=
  let t1 := setError e t in mkF (f_dim t1) (f_error t1) (f_S t1) (evaluateChiSquaredError t1) (f_weight t1).
(** the same for ExpressionErrorTerm, ExpressionErrorTerm.hpp L112-117: the square root is not transposed *)
Definition updateRawSquaredError_expr (e : vec K) (t : fterm) : fterm :=
  let t1 := setError e t in
  let tmp := mvmul (f_dim t1) (f_S t1) e in
  mkF (f_dim t1) (f_error t1) (f_S t1) (vdot (f_dim t1) tmp tmp) (f_weight t1).

(** getCurrentMEstimatorWeight L89, getWeightedSquaredError L122, getRawSquaredError L125,
    getSquaredError L127-129, evaluateError L44-47 *)
Definition getCurrentMEstimatorWeight (t : fterm) : K := f_weight t (f_sq t).
(* same code: L89, L122, L125, L127-129, L44-47 *)
Definition getWeightedSquaredError (t : fterm) : K := kmul (getCurrentMEstimatorWeight t) (f_sq t).
(* same code: L89, L122, L125, L127-129, L44-47 *)
Definition getRawSquaredError (t : fterm) : K := f_sq t.
(* same code: L89, L122, L125, L127-129, L44-47 *)
Definition getSquaredError (useM : bool) (t : fterm) : K :=
  if useM then getWeightedSquaredError t else getRawSquaredError t.

(** sqrtWeight in getWeightedError (implementation/ErrorTerm.hpp L184-190), in
    evaluateWeightedJacobian (ErrorTerm.hpp L181-189) and in buildHessianImplementation (L110-112) *)
Definition sqrtWeight (useM : bool) (t : fterm) : K :=
  if useM then ksqrt (f_weight t (getRawSquaredError t)) else k1.
(* same code: implementation/ErrorTerm.hpp L184-190, ErrorTerm.hpp L181-189, L110-112 *)
Definition getWeightedError (useM : bool) (t : fterm) : vec K :=
  fun i => kmul (mvmul (f_dim t) (mtr (f_S t)) (f_error t) i) (sqrtWeight useM t).
(** the chain-rule factor of evaluateWeightedJacobian *)
(* same code: implementation/ErrorTerm.hpp L184-190, ErrorTerm.hpp L181-189, L110-112 *)
Definition weightFactor (useM : bool) (t : fterm) : @dmat K :=
  mkD (f_dim t) (f_dim t) (mscale (sqrtWeight useM t) (mtr (f_S t))).
(** getWeightedJacobians(outJc, useM): what is done to the container; [calls] is what
    evaluateJacobians does *)
(* same code: implementation/ErrorTerm.hpp L184-190, ErrorTerm.hpp L181-189, L110-112 *)
Definition weighted_calls (useM : bool) (t : fterm) (calls : list (@cop K)) : list (@cop K) :=
  CApply (weightFactor useM t) :: calls ++ [CEnd].

(** ** gradient contribution of one squared term, ProblemManager.cpp L140-161
    (row vector J with numOpt columns; [al] is the alignment used by the matrix stack) *)
Definition row_block_add (J : vec K) (base len : nat) (u : vec K) : vec K :=
  fun j => if (base <=? j) && (j <? base + len) then kadd (J j) (u (j - base)) else J j.
(* same code: ProblemManager.cpp L140-161 *)
Definition rowmul (n : nat) (ev : vec K) (M : mat K) : vec K := fun j => ksum n (fun i => kmul (ev i) (M i j)).
(* same code: ProblemManager.cpp L140-161 *)
Definition addGradientS (al : nat) (useM dense_ : bool) (numOpt : nat) (t : fterm) (calls : list (@cop K)) (J : vec K)
  : res (vec K) :=
  let ev := fun i => kmul (getWeightedError useM t i) (kadd k1 k1) in
  if dense_ then
    do c <- jc_run _ de_addJ al (de_init (f_dim t) numOpt) (weighted_calls useM t calls);
    Ok (fun j => if j <? numOpt then kadd (J j) (rowmul (f_dim t) ev (de_mat (jc_store c)) j) else J j)
  else
    do c <- jc_run _ sp_addJ al (sp_init (f_dim t)) (weighted_calls useM t calls);
    Ok (fold_left (fun J e => row_block_add J (Z.to_nat (dv_col (fst e))) (d_cols (snd e))
                                (rowmul (f_dim t) ev (d_at (snd e)))) (jc_store c) J).

(** addGradientForErrorTerm(J, ErrorTerm*, ...), L140-143: the error is updated first *)
Definition addGradientForErrorTerm (al : nat) (useM dense_ : bool) (numOpt : nat) (e : vec K) (t : fterm)
  (calls : list (@cop K)) (J : vec K) : res (vec K) :=
  addGradientS al useM dense_ numOpt (updateRawSquaredError e t) calls J.

(** ** scalar non-squared terms: _w, evaluateErrorImplementation() and the stored _error;
    updateRawError L18-21, getMEstimatorWeight (ScalarNonSquaredErrorTerm.hpp L97), [kabs] is fabs *)
Variable kabs : K -> K.
(* same code: L18-21, ScalarNonSquaredErrorTerm.hpp L97 *)
Record nterm := mkN { n_w : K; n_error : K; n_weight : K -> K }.
(* same code: L18-21, ScalarNonSquaredErrorTerm.hpp L97 *)
Definition updateRawError (e : K) (t : nterm) : nterm := mkN (n_w t) (kmul (n_w t) e) (n_weight t).
(* same code: L18-21, ScalarNonSquaredErrorTerm.hpp L97 *)
Definition getRawError (t : nterm) : K := n_error t.
(* same code: L18-21, ScalarNonSquaredErrorTerm.hpp L97 *)
Definition getWeightedErrorNS (t : nterm) : K := kmul (n_weight t (kabs (getRawError t))) (getRawError t).
(** evaluateJacobians(outJ, useM): evaluateRawJacobians L23-26, evaluateWeightedJacobians L28-32
    (the weight is taken at the raw error without fabs) *)
Definition ns_factor (useM : bool) (t : nterm) : K :=
  if useM then kmul (n_w t) (n_weight t (getRawError t)) else n_w t.
(* same code: L23-26, L28-32 *)
Definition ns_calls (useM : bool) (t : nterm) (calls : list (@cop K)) : list (@cop K) :=
  CApplyS (ns_factor useM t) :: calls ++ [CEnd].
(** ProblemManager.cpp L163-169, container construction L276-292 (there one container serves all
    non-squared terms of a range; it is cleared before each term and its chain-rule stack is empty
    again after each term, so a new one is used here) *)
Definition addGradientNS (al : nat) (useM dense_ : bool) (numOpt : nat) (t : nterm) (calls : list (@cop K)) (J : vec K)
  : res (vec K) :=
  if dense_ then
    do c <- jc_run _ de_addJ al (mkJC (ms_init 1 100 9) (mkDense 1 numOpt (fun _ => J))) (ns_calls useM t calls);
    Ok (fun j => de_mat (jc_store c) 0 j)
  else
    do c <- jc_run _ sp_addJ al (sp_init 1) (ns_calls useM t calls);
    Ok (fold_left (fun J e => row_block_add J (Z.to_nat (dv_col (fst e))) (d_cols (snd e))
                                (d_at (snd e) 0)) (jc_store c) J).
End Errors.
