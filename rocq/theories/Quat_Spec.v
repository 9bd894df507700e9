(** * Unit quaternions *)
From Coq Require Import Arith List Reals.
From Verif Require Import Lib_Ring Lib_Real Geo_Model Geo_Spec Quat_Model.
Import ListNotations.
Local Open Scope R_scope.

Definition unit_quat (q : vec R) : Prop := q 0%nat * q 0%nat + q 1%nat * q 1%nat + q 2%nat * q 2%nat + q 3%nat * q 3%nat = 1.
(* the values given from outside are unit quaternions *)
Definition given_ok (o : rotop) : Prop := match o with RSetParameters q | RSet q => unit_quat q | _ => True end.
(* the rotation vector with angle h about a coordinate axis *)
Definition axis_vec (j : nat) (h : R) : vec R := fun i => if (i =? j)%nat then h else 0.
(* the exact formula for axisAngle2quat *)
Definition exact_aa2q (d : vec R) : vec R :=
  let th := sqrt (d 0%nat * d 0%nat + d 1%nat * d 1%nat + d 2%nat * d 2%nat) in
  fun i => if Req_EM_T th 0 then (if (i =? 3)%nat then 1 else 0) else if (i =? 3)%nat then cos (th / 2) else d i * (sin (th / 2) / th).
