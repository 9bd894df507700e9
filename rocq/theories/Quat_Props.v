(** * C59: rotations stay rotations *)
From Coq Require Import Arith List Reals.
From Verif Require Import Lib_Ring Lib_Real Lib_Res Geo_Model Geo_Spec Geo_Toy Quat_Model Quat_Spec Quat_Proofs Quat_Toy.
Import ListNotations.
Local Open Scope R_scope.

(** C59. A rotation design variable constructed from a unit quaternion: after every sequence of updates, reverts and assignments of unit quaternions its quaternion has
    norm one, and its matrix is the matrix of the quaternion, orthonormal with determinant one. axisAngle2quat is assumed to return unit quaternions. *)
Theorem C59_history : forall aa2q l q, (forall d, unit_quat (aa2q d)) -> unit_quat q -> Forall given_ok l -> let r := rot_run aa2q (rot_new q) l in unit_quat (rq r) /\ rC r = quat2r (rq r) /\ is_rot (rC r).
Proof. exact new_inv. Qed.
Print Assumptions C59_history.
Example C59_history_ex : (forall d, unit_quat (exact_aa2q d)) /\ unit_quat q35 /\ Forall given_ok toy_hist.
Proof. exact quat_hyps. Qed.

(** The same for the constructor from a rotation matrix. *)
Theorem C59_history_matrix : forall aa2q r2quat l C, (forall d, unit_quat (aa2q d)) -> is_rot C -> unit_quat (r2quat C) -> Forall given_ok l -> let r := rot_run aa2q (rot_new_C r2quat C) l in unit_quat (rq r) /\ is_rot (rC r).
Proof. exact new_C_inv. Qed.
Print Assumptions C59_history_matrix.
Example C59_history_matrix_ex : is_rot (quat2r q35) /\ unit_quat ((fun _ => q35) (quat2r q35)).
Proof. exact quat_C_hyps. Qed.

(** With the exact formula for axisAngle2quat, an update by the angle h about axis j multiplies the matrix by the rotation by - h about this axis from the left. *)
Theorem C59_axis_update : forall q j h, (j < 3)%nat -> meq 3 3 (quat2r (updateQuat exact_aa2q q (axis_vec j h))) (mmul 3 (axis_rot j (- h)) (quat2r q)).
Proof. exact axis_update. Qed.
Print Assumptions C59_axis_update.

(** Every rotation expression built by composing, inverting, taking the rotation of a transformation, etc. has a rotation as its value if its rotation design variables
    hold rotations; every transformation expression has a rigid transformation as its value. *)
Theorem C59_expressions : forall X par_dom kinds s, kinematics_ok X par_dom -> state_ok kinds s ->
  (forall e, rxwf kinds e -> forall C, rxval X e s = Ok C -> is_rot C) /\ (forall e, txwf kinds e -> forall T, txval X e s = Ok T -> rigid T).
Proof. exact rot_values. Qed.
Print Assumptions C59_expressions.
Example C59_expressions_ex : kinematics_ok toy_kin (fun _ => True) /\ state_ok toy_kinds toy_st /\ rxwf toy_kinds toy_r /\ (exists C, rxval toy_kin toy_r toy_st = Ok C) /\
  txwf toy_kinds toy_t /\ (exists T, txval toy_kin toy_t toy_st = Ok T).
Proof. exact expr_hyps. Qed.

(** setParameters does not normalise: the unit-norm condition on the values given from outside is needed. *)
Theorem C59_unit_needed : ~ is_rot (rC (rot_run exact_aa2q (rot_new q35) [RSetParameters q2])).
Proof. exact not_unit. Qed.
Print Assumptions C59_unit_needed.
