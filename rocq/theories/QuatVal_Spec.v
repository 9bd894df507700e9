(** * C91: vocabulary: quaternions as four numbers, vectors as three, independent of how the expressions store them *)
From Coq Require Import Reals Bool.
From Verif Require Import Lib_Ring Lib_Real MatExpr_Model.
Open Scope R_scope.

(* real part and imaginary parts *)
Record quaternion := Quaternion { qw : R; qx : R; qy : R; qz : R }.
Record vec3 := Vec3 { v1 : R; v2 : R; v3 : R }.
(* i^2 = j^2 = k^2 = ijk = -1 *)
Definition hamilton (a b : quaternion) : quaternion :=
  Quaternion (qw a * qw b - qx a * qx b - qy a * qy b - qz a * qz b)
             (qw a * qx b + qx a * qw b + qy a * qz b - qz a * qy b)
             (qw a * qy b - qx a * qz b + qy a * qw b + qz a * qx b)
             (qw a * qz b + qx a * qy b - qy a * qx b + qz a * qw b).
Definition q_one : quaternion := Quaternion 1 0 0 0.
Definition q_norm2 (a : quaternion) : R := qw a ^ 2 + qx a ^ 2 + qy a ^ 2 + qz a ^ 2.
Definition q_conjugate (a : quaternion) : quaternion := Quaternion (qw a) (- qx a) (- qy a) (- qz a).
Definition q_imag (a : quaternion) : vec3 := Vec3 (qx a) (qy a) (qz a).
(* a vector as a quaternion without real part *)
Definition pure (v : vec3) : quaternion := Quaternion 0 (v1 v) (v2 v) (v3 v).
Definition dot (u v : vec3) : R := v1 u * v1 v + v2 u * v2 v + v3 u * v3 v.
Definition cross (u v : vec3) : vec3 := Vec3 (v2 u * v3 v - v3 u * v2 v) (v3 u * v1 v - v1 u * v3 v) (v1 u * v2 v - v2 u * v1 v).
(* what a column of numbers stands for in a storage order *)
Definition as_quaternion (m : qmode) (A : mat R) : quaternion :=
  if real_first m then Quaternion (A 0%nat 0%nat) (A 1%nat 0%nat) (A 2%nat 0%nat) (A 3%nat 0%nat) else Quaternion (A 3%nat 0%nat) (A 0%nat 0%nat) (A 1%nat 0%nat) (A 2%nat 0%nat).
Definition as_vec3 (A : mat R) : vec3 := Vec3 (A 0%nat 0%nat) (A 1%nat 0%nat) (A 2%nat 0%nat).
(* the rotation by a unit quaternion q: traditional q v q*, otherwise q* v q *)
Definition turned (trad : bool) (q : quaternion) (v : vec3) : vec3 :=
  q_imag (if trad then hamilton (hamilton q (pure v)) (q_conjugate q) else hamilton (q_conjugate q) (hamilton (pure v) q)).
