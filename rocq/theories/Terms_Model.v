(** * The error terms shipped with the libraries

    aslam_backend_tutorial/src/ErrorTermPrior.cpp ("Pr"), ErrorTermMotion.cpp ("Mo"), ErrorTermObservation.cpp ("Ob");
    aslam_backend_expressions/src/L1Regularizer.cpp ("L1") with include/aslam/backend/L1Regularizer.hpp ("L1h");
    aslam_backend_expressions/src/ErrorTermTransformation.cpp ("Tr") with include/aslam/backend/ErrorTermTransformation.hpp ("Trh");
    aslam_backend/src/ScalarNonSquaredErrorTerm.cpp ("Ns").

    Real arithmetic. A scalar design variable (ScalarDesignVariable, Scalar) is component 0 of its value in the state. The calls an error term makes on the
    Jacobian container are a list of [cop] as in Jacobian_Model. Debug output (Tr L51-59, L73-78) is left out. Matrices of sm::kinematics as in Geo_Model. *)
From Coq Require Import Arith Lia List ZArith Bool Reals.
From Verif Require Import Lib_Ring Lib_Real Lib_Res MatrixStack_Model DesignVar_Base Jacobian_Model Scalar_Model Geo_Model.
Import ListNotations.
Local Open Scope R_scope.

(* _x->value(): Pr L27, Mo L29, Ob L30; dv->getParameters()(0,0): L1 L28, L37-38 *)
Definition xval (d : dvr) (s : state) : R := s (dv_id d) 0%nat.
(* a 1x1 matrix: Pr L40, Mo L38-39, Ob L40-43, L1 L34 *)
Definition one_by_one (a : R) : @dmat R := mkD 1 1 (fun _ _ => a).

(** ** The three scalar terms of the tutorial *)
(* 1.0/sigma2: Pr L9-11, Mo L10-13, Ob L10-13; evaluateChiSquaredError of a one-dimensional term: Pr L32, Mo L31, Ob L32 *)
Definition chi_squared (sigma2 e : R) : res R := do w <- fdiv 1 sigma2; Ok (e * w * e).

(* Pr L25-33 *)
Definition prior_error (x : dvr) (hat_x : R) (s : state) : res R := Ok (xval x s - hat_x).
(* Pr L37-42 *)
Definition prior_calls (x : dvr) (s : state) : res (list (@cop R)) := Ok [CAdd x (one_by_one 1)].
(* Mo L26-32 *)
Definition motion_error (x_k x_kp1 : dvr) (u : R) (s : state) : res R := Ok (xval x_kp1 s - xval x_k s - u).
(* Mo L36-40 *)
Definition motion_calls (x_k x_kp1 : dvr) (s : state) : res (list (@cop R)) := Ok [CAdd x_k (one_by_one (- (1))); CAdd x_kp1 (one_by_one 1)].
(* Ob L26-33 *)
Definition observation_error (x_k w : dvr) (y : R) (s : state) : res R := do q <- fdiv 1 (xval w s - xval x_k s); Ok (y - q).
(* Ob L37-44 *)
Definition observation_calls (x_k w : dvr) (s : state) : res (list (@cop R)) :=
  do q <- fdiv (-1) (xval w s - xval x_k s); let q2 := q * q in Ok [CAdd x_k (one_by_one (- q2)); CAdd w (one_by_one q2)].

(** ** L1Regularizer
    The member _dvs is a reference to the vector of the caller (L1h L32), so every call reads [lst], the contents of that vector at the time of the call,
    [None] when it no longer exists. The design variables reported to the optimiser are a copy taken by the constructor. *)
Record l1 := mkL1 { l1_reported : list dvr; l1_w : R }.
(* L1 L15-21 *)
Definition l1_new (scalarDvs : list dvr) (beta : R) : l1 := mkL1 scalarDvs beta.
(* getDesignVariables: Ns L107-110 *)
Definition l1_getDesignVariables (t : l1) : list dvr := l1_reported t.
(* the loop of L1 L25-30 *)
Definition l1_sum (dvs : list dvr) (s : state) : R := fold_left (fun sum d => if dv_active d then sum + Rabs (xval d s) else sum) dvs 0.
(* evaluateErrorImplementation: L1 L23-31 *)
Definition l1_evaluateErrorImplementation (lst : option (list dvr)) (s : state) : res R := match lst with None => UB | Some dvs => Ok (l1_sum dvs s) end.
(* the branchless signum of L1 L38 *)
Definition l1_sign (p : R) : R := (if Rlt_dec 0 p then 1 else 0) - (if Rlt_dec p 0 then 1 else 0).
(* evaluateJacobiansImplementation: L1 L33-42 *)
Definition l1_calls (lst : option (list dvr)) (s : state) : res (list (@cop R)) :=
  match lst with None => UB | Some dvs => Ok (flat_map (fun d => if dv_active d then [CAdd d (one_by_one (l1_sign (xval d s)))] else []) dvs) end.
(* updateRawError: Ns L18-21 *)
Definition l1_updateRawError (t : l1) (lst : option (list dvr)) (s : state) : res R := do e <- l1_evaluateErrorImplementation lst s; Ok (l1_w t * e).
(* evaluateRawJacobians: Ns L23-26 *)
Definition l1_evaluateRawJacobians (t : l1) (lst : option (list dvr)) (s : state) : res (list (@cop R)) := do cs <- l1_calls lst s; Ok (scope (CApplyS (l1_w t)) cs).

(** ** ErrorTermTransformation
    [tr_prior_inv] is the matrix _prior.inverse().T(); [tr_E] the member _errorMatrix, which no constructor initialises. *)
(* ErrorTermTransformation.hpp L49-50 *)
Record tr := mkTr { tr_T : tx; tr_prior_inv : mat R; tr_invR : mat R; tr_E : option (mat R) }.
(* Tr L7-17 *)
Definition tr_new_cov (T : tx) (prior_inv N_inverse : mat R) : tr := mkTr T prior_inv N_inverse None.
(* Tr L19-32 *)
Definition tr_new_weights (T : tx) (prior_inv : mat R) (weightRotation weightTranslation : R) : tr :=
  mkTr T prior_inv (fun i j => if (i =? j)%nat then if (i <? 3)%nat then weightTranslation else weightRotation else 0) None.
(* errorVector: Tr L46-48 *)
Definition tr_vector (X : kinematics) (E : mat R) : vec R := fun i => if (i <? 3)%nat then trans_part E i else rot_params X (rot_part E) (i - 3)%nat.
(* evaluateErrorImplementation: Tr L42-62; returns the object, the error vector and the squared error *)
Definition tr_evaluateError (X : kinematics) (t : tr) (s : state) : res (tr * vec R * R) :=
  do T <- txval X (tr_T t) s;
  let E := mmul 4 T (tr_prior_inv t) in
  let e := tr_vector X E in
  Ok (mkTr (tr_T t) (tr_prior_inv t) (tr_invR t) (Some E), e, vdot 6 e (mvmul 6 (tr_invR t) e)).
(* the matrix J of Tr L69-71 *)
Definition tr_J (X : kinematics) (E : mat R) : mat R := fun i j =>
  if (i <? 3)%nat then if (j <? 3)%nat then delta i j else crossm (trans_part E) i (j - 3)%nat
  else if (j <? 3)%nat then 0 else rot_params_jac X (rot_part E) (i - 3)%nat (j - 3)%nat.
(* evaluateJacobiansImplementation: Tr L66-81 *)
Definition tr_calls (X : kinematics) (t : tr) (s : state) : res (list (@cop R)) :=
  match tr_E t with
  | None => UB
  | Some E => do jt <- txjac X (tr_T t) s; Ok (scope (CApply (mkD 6 6 (tr_J X E))) jt)
  end.
