(** * Motions of a chain of frames (specification) *)
From Coq Require Import Arith List ZArith Bool Reals.
From Verif Require Import Lib_Ring Lib_Real Lib_Res MatrixStack_Model DesignVar_Base Jacobian_Model Scalar_Model Geo_Model Geo_Spec Empty_Model Chain_Model.
Import ListNotations.
Local Open Scope R_scope.

(* the motion of a frame relative to its parent, in the parent's coordinates, as functions of time *)
Record motion := { mR : R -> mat R; mp : R -> vec R; momega : R -> vec R; mv : R -> vec R; malpha : R -> vec R; ma : R -> vec R }.
Definition velocity (f f' : R -> vec R) : Prop := forall t i, (i < 3)%nat -> derivable_pt_lim (fun u => f u i) t (f' t i).
(* rotation matrices turning with angular velocity w: C' = w x C *)
Definition turns (C : R -> mat R) (w : R -> vec R) : Prop :=
  (forall t, is_rot (C t)) /\ forall t i j, (i < 3)%nat -> (j < 3)%nat -> derivable_pt_lim (fun u => C u i j) t (mmul 3 (crossm (w t)) (C t) i j).
(* v is the velocity, a the acceleration, omega the angular velocity, alpha the angular acceleration of the motion *)
Definition proper (m : motion) : Prop := velocity (mp m) (mv m) /\ velocity (mv m) (ma m) /\ turns (mR m) (momega m) /\ velocity (momega m) (malpha m).
(* while the design variables move along s, the expressions of the frame follow m *)
Definition follows (X : kinematics) (s : R -> state) (f : frame) (m : motion) : Prop := forall t,
  hrot X (fR f) (s t) = Ok (mR m t) /\ heval X (fp f) (s t) = Ok (mp m t) /\ heval X (fomega f) (s t) = Ok (momega m t) /\
  heval X (fv f) (s t) = Ok (mv m t) /\ heval X (falpha f) (s t) = Ok (malpha m t) /\ heval X (fa f) (s t) = Ok (ma m t).

(* global orientation and position: composition of the poses *)
Fixpoint poseR (ms : list motion) (t : R) : mat R := match ms with [] => mid | m :: ps => mmul 3 (poseR ps t) (mR m t) end.
Fixpoint posep (ms : list motion) (t : R) : vec R := match ms with [] => fun _ => 0 | m :: ps => fun i => posep ps t i + mvmul 3 (poseR ps t) (mp m t) i end.
(* angular velocity of the global orientation; poseomega_turns in Chain_Proofs shows that it is *)
Fixpoint poseomega (ms : list motion) (t : R) : vec R := match ms with [] => fun _ => 0 | m :: ps => fun i => poseomega ps t i + mvmul 3 (poseR ps t) (momega m t) i end.
(* the sum over the frames of parent's angular velocity x local velocity *)
Fixpoint coriolis (ms : list motion) (t : R) : vec R := match ms with [] => fun _ => 0 | m :: ps => fun i => coriolis ps t i + mvmul 3 (crossm (poseomega ps t)) (mvmul 3 (poseR ps t) (mv m t)) i end.

(* f t is the value of the vector expression e at time t *)
Definition value (X : kinematics) (s : R -> state) (e : handle vx) (f : R -> vec R) : Prop := forall t, exists y, heval X e (s t) = Ok y /\ veq 3 y (f t).
Definition rvalue (X : kinematics) (s : R -> state) (e : handle rx) (f : R -> mat R) : Prop := forall t, exists C, hrot X e (s t) = Ok C /\ meq 3 3 C (f t).
