(** * What the adapter and the camera have to deliver *)
From Coq Require Import Arith Lia List ZArith NArith Bool Reals.
From Verif Require Import Lib_Ring Lib_Real Lib_Res MatrixStack_Model DesignVar_Base Jacobian_Model Scalar_Model Scalar_Spec Geo_Model Geo_Spec Quat_Model Quat_Spec Adapt_Model.
Import ListNotations.
Local Open Scope R_scope.

(* near the state the four-vector stays a unit quaternion when component j of design variable d is updated *)
Definition stays_unit (X : kinematics) (kinds : nat -> kind) (e : vx) (s : state) (d : dvr) (j : nat) : Prop :=
  near (fun h => forall q, vxval X e (gperturb X kinds s d j h) = Ok q -> unit_quat q).

(* the Jacobians of the camera are the derivatives of its projection with respect to the parameters *)
Definition bump (v : vec R) (j : nat) (h : R) : vec R := fun i => if (i =? j)%nat then v i + h else v i.
Definition camera_ok (m : camera) (v : camdv) (ph : vec R) (s : state) : Prop :=
  let p := s (dv_id (c_p v)) in let d := s (dv_id (c_d v)) in let t := s (dv_id (c_s v)) in
  forall i, (i < cam_k m)%nat ->
  (forall j, (j < dv_dim (c_p v))%nat -> derivable_pt_lim (fun h => cam_kp m ph (bump p j h) d t i) 0 (cam_Jp m ph p d t i j)) /\
  (forall j, (j < dv_dim (c_d v))%nat -> derivable_pt_lim (fun h => cam_kp m ph p (bump d j h) t i) 0 (cam_Jd m ph p d t i j)) /\
  (forall j, (j < dv_dim (c_s v))%nat -> derivable_pt_lim (fun h => cam_kp m ph p d (bump t j h) i) 0 (cam_Js m ph p d t i j)).
(* the residual of a measured keypoint y, and the state after the update of one component of a design variable *)
Definition residual (m : camera) (v : camdv) (ph y : vec R) (s : state) : vec R := fun i => y i - keypoint m v ph s i.
Definition moved (s : state) (d : dvr) (j : nat) (h : R) : state := fun id => if (id =? dv_id d)%nat then bump (s id) j h else s id.
(* three different design variables *)
Definition cam_wf (v : camdv) : Prop := dv_id (c_p v) <> dv_id (c_d v) /\ dv_id (c_p v) <> dv_id (c_s v) /\ dv_id (c_d v) <> dv_id (c_s v).
