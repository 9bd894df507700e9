(** * What it means for the Jacobians of an error term to be right *)
From Coq Require Import Arith List ZArith NArith Bool Reals.
From Verif Require Import Lib_Ring Lib_Real Lib_Res MatrixStack_Model DesignVar_Base Jacobian_Model Jacobian_Spec Scalar_Model Scalar_Spec Geo_Model Geo_Spec Terms_Model.
Import ListNotations.
Local Open Scope R_scope.

(* a one-dimensional term that reports the scalar design variables dvs: error and Jacobians can be evaluated at s, and the container then holds the partial derivatives of the error *)
Definition jacobians_right (al : nat) (dvs : list dvr) (error : state -> res R) (calls : state -> res (list (@cop R))) (s : state) : Prop :=
  exists v ops c, error s = Ok v /\ calls s = Ok ops /\ jc_run _ sp_addJ al (sp_init 1) ops = Ok c /\
    forall d, In d dvs -> dv_active d = true -> partial error s d 0 (jacobian_entry (jc_store c) d 0 0).

(* scalar design variables *)
Definition scalars (dvs : list dvr) : Prop := wf_dvs dvs /\ forall d, In d dvs -> dv_dim d = 1%nat.

(* the active design variables of a list, each once *)
Definition each_active (dvs l : list dvr) : Prop := NoDup l /\ forall d, In d l <-> In d dvs /\ dv_active d = true.
(* the sum of a quantity over a list of design variables *)
Fixpoint dsum (l : list dvr) (f : dvr -> R) : R := match l with [] => 0 | d :: l' => f d + dsum l' f end.

(* R2AxisAngle vanishes for the identity only *)
Definition angle_faithful (X : kinematics) : Prop := forall C, is_rot C -> ((forall i, (i < 3)%nat -> rot_params X C i = 0) <-> meq 3 3 C mid).
(* the inverse of the prior *)
Definition inverse_of (P Q : mat R) : Prop := meq 4 4 (mmul 4 P Q) mid /\ meq 4 4 (mmul 4 Q P) mid.
