(** * C57: kinematic chain quantities are time derivatives of each other

    s is the motion of the design variables in time; ms gives, for each frame of the chain, its motion relative to its parent; [proper] says that v, a, omega and alpha of
    that motion are what their names say. The global position and orientation (posep, poseR in Chain_Spec) are the composition of the poses along the chain. *)
From Coq Require Import Arith Lia List ZArith NArith Bool Reals Lra.
From Verif Require Import Lib_Ring Lib_Real Lib_Res MatrixStack_Model DesignVar_Base Jacobian_Model Scalar_Model Geo_Model Geo_Spec Geo_Toy Empty_Model Chain_Model Chain_Spec Chain_Proofs Chain_Toy.
Import ListNotations.
Local Open Scope R_scope.

(** The global position is the composition of the frames' positions, and the global velocity its time derivative. *)
Theorem C57_velocity : forall X s c ms, Forall2 (follows X s) c ms -> Forall proper ms -> value X s (getP c) (posep ms) /\ exists v, value X s (getV c) v /\ velocity (posep ms) v.
Proof. exact chain_position. Qed.
Print Assumptions C57_velocity.
Example C57_velocity_ex : Forall2 (follows toy_kin clock) [slider; arm; table] [slider_m; arm_m; table_m] /\ Forall proper [slider_m; arm_m; table_m].
Proof. exact chain3_ex. Qed.

(** The global orientation is the composition of the orientations, it turns with the global angular velocity, and the global angular acceleration is that one's time derivative. *)
Theorem C57_angular : forall X s c ms, Forall2 (follows X s) c ms -> Forall proper ms ->
  rvalue X s (getR c) (poseR ms) /\ exists w al, value X s (getOmega c) w /\ turns (poseR ms) w /\ value X s (getAlpha c) al /\ velocity w al.
Proof. exact chain_rotation. Qed.
Print Assumptions C57_angular.
Example C57_angular_ex : Forall2 (follows toy_kin clock) [slider; arm; table] [slider_m; arm_m; table_m] /\ Forall proper [slider_m; arm_m; table_m].
Proof. exact chain3_ex. Qed.

(** The derivative of the global velocity is the global acceleration plus one more sum over the frames of (angular velocity of the parent) x (local velocity).
    The code has this Coriolis term once instead of twice (KinematicChain.cpp L24). *)
Theorem C57_acceleration_partial : forall X s c ms, Forall2 (follows X s) c ms -> Forall proper ms ->
  exists v a, value X s (getV c) v /\ value X s (getA c) a /\ velocity v (fun t i => a t i + coriolis ms t i).
Proof. exact chain_acceleration. Qed.
Print Assumptions C57_acceleration_partial.
Example C57_acceleration_partial_ex : Forall2 (follows toy_kin clock) [slider; arm; table] [slider_m; arm_m; table_m] /\ Forall proper [slider_m; arm_m; table_m].
Proof. exact chain3_ex. Qed.

(** So the acceleration is right where these terms vanish, for instance when no frame below a turning one moves locally. *)
Theorem C57_acceleration_no_coriolis_partial : forall X s c ms, Forall2 (follows X s) c ms -> Forall proper ms -> (forall t i, (i < 3)%nat -> coriolis ms t i = 0) ->
  exists v a, value X s (getV c) v /\ value X s (getA c) a /\ velocity v a.
Proof. exact chain_acceleration_0. Qed.
Print Assumptions C57_acceleration_no_coriolis_partial.
Example C57_acceleration_no_coriolis_partial_ex : Forall2 (follows toy_kin clock) [arm; table] [arm_m; table_m] /\ Forall proper [arm_m; table_m] /\ forall t i, (i < 3)%nat -> coriolis [arm_m; table_m] t i = 0.
Proof. exact chain2_ex. Qed.

(** In general it is wrong: a slider moving outwards on a turntable. *)
Theorem C57_acceleration_refuted : ~ (forall X s c ms v a, Forall2 (follows X s) c ms -> Forall proper ms -> value X s (getV c) v -> value X s (getA c) a -> velocity v a).
Proof. exact (fun H => match chain_refuted with ex_intro _ X (ex_intro _ s (ex_intro _ c (ex_intro _ ms (ex_intro _ v (ex_intro _ a (conj F (conj P (conj V (conj A N))))))))) => N (H X s c ms v a F P V A) end). Qed.
Print Assumptions C57_acceleration_refuted.
