(** * A rotation made of a four-vector expression; a camera as design variables

    aslam_backend_expressions/src/Vector2RotationQuaternionExpressionAdapter.cpp ("A") and
    aslam_backend_expressions/include/aslam/backend/implementation/CameraDesignVariable.hpp ("C"). Real arithmetic, expressions as in Geo_Model.
    quatInv and quatOPlus of sm::kinematics are written out (quaternions as (x, y, z, w), quatInv is the conjugate); a camera is a parameter. *)
From Coq Require Import Arith Lia List ZArith Bool Reals.
From Verif Require Import Lib_Ring Lib_Real Lib_Res MatrixStack_Model DesignVar_Base Jacobian_Model Scalar_Model Geo_Model Quat_Model.
Import ListNotations.
Local Open Scope R_scope.

(** ** Vector2RotationQuaternionExpressionAdapter *)
(* quatInv, called in A L27 *)
Definition quatInv (q : vec R) : vec R := fun i => if (i <? 3)%nat then - q i else q i.
(* quatOPlus, called in A L27 *)
Definition quatOPlus (q : vec R) : mat R := fun i j =>
  let x := q 0%nat in let y := q 1%nat in let z := q 2%nat in let w := q 3%nat in
  match i, j with
  | 0%nat, 0%nat => w | 0%nat, 1%nat => - z | 0%nat, 2%nat => y | 0%nat, _ => x
  | 1%nat, 0%nat => z | 1%nat, 1%nat => w | 1%nat, 2%nat => - x | 1%nat, _ => y
  | 2%nat, 0%nat => - y | 2%nat, 1%nat => x | 2%nat, 2%nat => w | 2%nat, _ => z
  | _, 0%nat => - x | _, 1%nat => - y | _, 2%nat => - z | _, _ => w end.
(* getMatrixToLieAlgebra A L26-28: the three top rows *)
Definition toLieAlgebra (q : vec R) : mat R := quatOPlus (quatInv (fun i => q i * 2)).
(* toRotationMatrixImplementation A L21-24 *)
Definition adapt_val (X : kinematics) (e : vx) (s : state) : res (mat R) := do q <- vxval X e s; Ok (quat2r q).
(* evaluateJacobiansImplementation A L30-33 *)
Definition adapt_jac (X : kinematics) (e : vx) (s : state) : res (list (@cop R)) :=
  do q <- vxval X e s; do j <- vxjac X e s; Ok (scope (CApply (mkD 3 4 (toLieAlgebra q))) j).

(** ** CameraDesignVariable *)
(* what a camera offers, as functions of the homogeneous point and of the parameters of projection, distortion and shutter: homogeneousToKeypoint (C L34) and its Jacobians (C L46, L50, L63-65);
   k is the size of a keypoint *)
Record camera := { cam_k : nat; cam_kp : vec R -> vec R -> vec R -> vec R -> vec R; cam_Jp : vec R -> vec R -> vec R -> vec R -> mat R; cam_Jd : vec R -> vec R -> vec R -> vec R -> mat R; cam_Js : vec R -> vec R -> vec R -> vec R -> mat R }.
(* _projectionDv, _distortionDv, _shutterDv: C L9-11 *)
Record camdv := { c_p : dvr; c_d : dvr; c_s : dvr }.
(* the camera holds its parameters: C L9-11 *)
Definition cam_at {A} (f : vec R -> vec R -> vec R -> vec R -> A) (v : camdv) (ph : vec R) (s : state) : A := f ph (s (dv_id (c_p v))) (s (dv_id (c_d v))) (s (dv_id (c_s v))).
(* homogeneousToKeypoint C L31-36 *)
Definition keypoint (m : camera) (v : camdv) (ph : vec R) (s : state) : vec R := cam_at (cam_kp m) v ph s.
(* evaluateJacobians(outJacobians, ph) C L38-54 *)
Definition cam_jac (m : camera) (v : camdv) (ph : vec R) (s : state) : list (@cop R) :=
  (if dv_active (c_p v) then [CAdd (c_p v) (mkD (cam_k m) (dv_dim (c_p v)) (fun i j => - cam_at (cam_Jp m) v ph s i j))] else []) ++
  (if dv_active (c_d v) then [CAdd (c_d v) (mkD (cam_k m) (dv_dim (c_d v)) (fun i j => - cam_at (cam_Jd m) v ph s i j))] else []).
(* evaluateJacobians(outJacobians, applyChainRule, ph) C L56-71; A is r x k *)
Definition cam_jac_chain (m : camera) (v : camdv) (r : nat) (A : mat R) (ph : vec R) (s : state) : list (@cop R) :=
  [CAdd (c_p v) (mkD r (dv_dim (c_p v)) (mmul (cam_k m) (fun i j => - A i j) (cam_at (cam_Jp m) v ph s)));
   CAdd (c_d v) (mkD r (dv_dim (c_d v)) (mmul (cam_k m) (fun i j => - A i j) (cam_at (cam_Jd m) v ph s)));
   CAdd (c_s v) (mkD r (dv_dim (c_s v)) (mmul (cam_k m) (fun i j => - A i j) (cam_at (cam_Js m) v ph s)))].
(* getDesignVariables C L73-81 *)
Definition cam_dvs (v : camdv) : list dvr := [c_p v; c_d v; c_s v].
