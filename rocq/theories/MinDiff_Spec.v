(** * What a minimal difference should be *)
From Coq Require Import Arith List ZArith NArith Bool Reals.
From Verif Require Import Lib_Ring Lib_Real Lib_Res MatrixStack_Model DesignVar_Base Jacobian_Model Jacobian_Spec Scalar_Model Scalar_Spec Quat_Model Quat_Spec MinDiff_Model.
Import ListNotations.
Local Open Scope R_scope.

Definition quat_one : vec R := fun i => if (i =? 3)%nat then 1 else 0.
(* a curve of unit quaternions through c 0 with velocity c' *)
Definition quat_curve (c : R -> vec R) (c' : vec R) : Prop := (forall h, unit_quat (c h)) /\ forall i, (i < 4)%nat -> derivable_pt_lim (fun h => c h i) 0 (c' i).
(* the contract of sm::kinematics: qlog inverts axisAngle2quat on the rotation vectors in ddom, and on the quaternions in qdom it vanishes at the identity only and
   quatLogJacobian, quatLogJacobian2 are its derivative; quatJacobian is the derivative of updateQuat *)
Definition qlog_ok (X : qlogk) (qdom : vec R -> Prop) (ddom : vec R -> Prop) : Prop :=
  (forall d, unit_quat (qk_aa2q X d)) /\
  (forall d, (forall i, (i < 3)%nat -> d i = 0) -> forall i, (i < 4)%nat -> qk_aa2q X d i = quat_one i) /\
  (forall d i, ddom d -> (i < 3)%nat -> qk_log X (qk_aa2q X d) i = d i) /\
  (forall q q' i, (forall k, (k < 4)%nat -> q k = q' k) -> (i < 3)%nat -> qk_log X q i = qk_log X q' i) /\
  (forall i, (i < 3)%nat -> qk_log X quat_one i = 0) /\
  (forall q, qdom q -> (forall i, (i < 3)%nat -> qk_log X q i = 0) -> forall i, (i < 4)%nat -> q i = quat_one i) /\
  (forall c c' i, quat_curve c c' -> qdom (c 0) -> (i < 3)%nat ->
     derivable_pt_lim (fun h => qk_log X (c h) i) 0 (ksum 4 (fun k => qk_logJ X (c 0) i k * c' k)) /\ derivable_pt_lim (fun h => qk_log X (c h) i) 0 (ksum 4 (fun k => qk_logJ2 X (c 0) i k * c' k))) /\
  (forall q i j, unit_quat q -> (i < 4)%nat -> (j < 3)%nat -> derivable_pt_lim (fun h => updateQuat (qk_aa2q X) q (axis_vec j h) i) 0 (qk_J X q i j)).

(* the classes with a difference of their own that do not map memory of the caller *)
Definition plain (k : mkind) : Prop := match k with KEuclideanPoint | KVector _ | KScalar | KGenericScalar | KTutorialScalar | KHomogeneousPoint | KRotationQuaternion => True | _ => False end.
Definition mapped (k : mkind) : Prop := match k with KMappedEuclideanPoint | KMappedVector _ | KMappedHomogeneousPoint | KMappedRotationQuaternion => True | _ => False end.
(* quaternions have norm one *)
Definition md_wf (v : mdv) : Prop := quat_kind (md_kind v) = true -> unit_quat (md_cur v) /\ unit_quat (md_prev v).
(* how many numbers a value of this class has, and in how many directions an update can move it *)
Definition coordinates (k : mkind) : nat :=
  match k with
  | KScalar | KGenericScalar | KTutorialScalar => 1 | KEuclideanPoint | KMappedEuclideanPoint => 3 | KVector n => n | KMappedVector n => n
  | KHomogeneousPoint | KMappedHomogeneousPoint | KRotationQuaternion | KMappedRotationQuaternion => 4 | KEuclideanDirection | KAdapter | KDefault => 0
  end%nat.
Definition freedom (k : mkind) : nat := match k with KHomogeneousPoint | KMappedHomogeneousPoint | KRotationQuaternion | KMappedRotationQuaternion => 3%nat | _ => coordinates k end.
(* xHat has the shape of the parameters of this class, and norm one if it is a quaternion *)
Definition xhat_ok (v : mdv) (x : @dmat R) : Prop := d_rows x = coordinates (md_kind v) /\ d_cols x = 1%nat /\ (quat_kind (md_kind v) = true -> unit_quat (fun i => d_at x i 0%nat)).
(* the rotation that leads from xHat to the value v is in the domain of the logarithm *)
Definition diff_dom (qdom : vec R -> Prop) (v : mdv) (x : @dmat R) : Prop := quat_kind (md_kind v) = true -> qdom (qplus (md_cur v) (quatInv (fun i => d_at x i 0%nat))).
(* the exact logarithm of a unit quaternion and its derivative; formulas for the example *)
Definition exact_factor (w : R) : R := if Req_EM_T w 1 then 2 else 2 * acos w / sqrt (1 - w * w).
Definition exact_qlog (q : vec R) : vec R := fun i => exact_factor (q 3%nat) * q i.
Definition exact_logJ (q : vec R) : mat R := fun i k =>
  if (k =? 3)%nat then (if Req_EM_T (q 3%nat) 1 then 0 else q i * (-2 / (1 - q 3%nat * q 3%nat) + q 3%nat * exact_factor (q 3%nat) / (1 - q 3%nat * q 3%nat)))
  else exact_factor (q 3%nat) * delta i k.
Definition exact_quatJ (q : vec R) : mat R := fun i j =>
  match i, j with
  | 0%nat, 0%nat => q 3%nat / 2 | 0%nat, 1%nat => - q 2%nat / 2 | 0%nat, _ => q 1%nat / 2
  | 1%nat, 0%nat => q 2%nat / 2 | 1%nat, 1%nat => q 3%nat / 2 | 1%nat, _ => - q 0%nat / 2
  | 2%nat, 0%nat => - q 1%nat / 2 | 2%nat, 1%nat => q 0%nat / 2 | 2%nat, _ => q 3%nat / 2
  | _, 0%nat => - q 0%nat / 2 | _, 1%nat => - q 1%nat / 2 | _, _ => - q 2%nat / 2 end.
Definition exact_log : qlogk := mkQlog exact_aa2q exact_qlog exact_logJ exact_logJ exact_quatJ.
Definition exact_qdom (q : vec R) : Prop := unit_quat q /\ -1 < q 3%nat.
Definition exact_ddom (d : vec R) : Prop := sqrt (d 0%nat * d 0%nat + d 1%nat * d 1%nat + d 2%nat * d 2%nat) < 2 * PI.
