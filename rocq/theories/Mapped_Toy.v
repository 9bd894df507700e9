(** * Examples for C77: integers, the rotation matrix of a quaternion (x, y, z, w), products of quaternions as updates *)
From Coq Require Import List ZArith.
From Verif Require Import Lib_Res DV_Model Mapped_Model Mapped_Spec.
Import ListNotations.
Local Open Scope Z_scope.

(* quat2r of sm_kinematics, called at MappedRotationQuaternion.cpp L10, L19, L30, L67: a polynomial in the entries *)
Definition zquat2r (q : list Z) : list Z :=
  match q with
  | [x; y; z; w] => [x*x - y*y - z*z + w*w; 2*x*y + 2*z*w; 2*x*z - 2*y*w; 2*x*y - 2*z*w; - (x*x) + y*y - z*z + w*w; 2*y*z + 2*x*w; 2*x*z + 2*y*w; 2*y*z - 2*x*w; - (x*x) - y*y + z*z + w*w]
  | _ => []
  end.
(* updateQuat of sm_kinematics with the quaternion of the increment given, called at MappedRotationQuaternion.cpp L29 *)
Definition zupd (q d : list Z) : list Z :=
  match d, q with
  | [a; b; c; s], [x; y; z; w] => [s*x - c*y + b*z + a*w; c*x + s*y - a*z + b*w; - b*x + a*y + s*z + c*w; - a*x - b*y - c*z + s*w]
  | _, _ => q
  end.
(* the normalisation of MappedHomogeneousPoint.cpp L10-11, here of vectors along an axis *)
Definition znorm (v : list Z) : list Z := map Z.sgn v.
(* the caller's arrays: a quaternion at 0, a translation at 1, a homogeneous point at 2, zeros elsewhere *)
Definition zmem : mem Z := fun a => match a with 0%nat => [0; 0; 0; 1] | 1%nat => [5; 6; 7] | 2%nat => [0; 0; 4; 0] | _ => [0; 0; 0] end.
(* a transformation made into an expression (MapTransformation.cpp L7-16) *)
Definition zT : world Z := map_transformation Z zquat2r znorm 0 1 zmem.
(* a point, a quaternion, a homogeneous point, each at its own address *)
Definition zl : list (mdv Z) := [mkMdv Point 1 [5; 6; 7] []; mkMdv Quaternion 0 [0; 0; 0; 1] (zquat2r [0; 0; 0; 1]); mkMdv Homogeneous 2 [0; 0; 4; 0] []].
(* two points that map one array *)
Definition ztwo : list (mdv Z) := [mkMdv Point 1 [5; 6; 7] []; mkMdv Point 1 [5; 6; 7] []].
(* a program: a step, a write elsewhere, setParameters, two reverts *)
Definition zes : list (event Z) := [Call 0 (Update [1; 0; 0; 0]); Write 3 [9; 9]; Call 1 (Update [1; 1; 1]); Call 0 (SetParameters [0; 1; 0; 0]); Write 1 [8; 8; 8]; Call 0 Revert; Call 1 Revert].
