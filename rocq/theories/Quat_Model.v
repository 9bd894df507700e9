(** * The rotation design variable

    aslam_backend_expressions/src/RotationQuaternion.cpp ("Q") and RotationQuaternion.hpp ("Qh"). Real arithmetic.
    sm::kinematics is not part of the repository: qplus and quat2r are written out (quaternions as (x, y, z, w)); axisAngle2quat is a parameter. *)
From Coq Require Import Arith List Reals.
From Verif Require Import Lib_Ring Lib_Real.
Import ListNotations.
Local Open Scope R_scope.

(* quat2r, called in Q L10, L25, L36, L73 and Qh L43 *)
Definition quat2r (q : vec R) : mat R := fun i j =>
  let x := q 0%nat in let y := q 1%nat in let z := q 2%nat in let w := q 3%nat in
  match i, j with
  | 0%nat, 0%nat => x * x - y * y - z * z + w * w | 0%nat, 1%nat => 2 * (x * y + z * w) | 0%nat, _ => 2 * (x * z - y * w)
  | 1%nat, 0%nat => 2 * (x * y - z * w) | 1%nat, 1%nat => - x * x + y * y - z * z + w * w | 1%nat, _ => 2 * (y * z + x * w)
  | _, 0%nat => 2 * (x * z + y * w) | _, 1%nat => 2 * (y * z - x * w) | _, _ => - x * x - y * y + z * z + w * w end.
(* qplus, inside updateQuat, called in Q L35 *)
Definition qplus (q p : vec R) : vec R := fun i =>
  match i with
  | 0%nat => q 3%nat * p 0%nat + q 2%nat * p 1%nat - q 1%nat * p 2%nat + q 0%nat * p 3%nat
  | 1%nat => - q 2%nat * p 0%nat + q 3%nat * p 1%nat + q 0%nat * p 2%nat + q 1%nat * p 3%nat
  | 2%nat => q 1%nat * p 0%nat - q 0%nat * p 1%nat + q 3%nat * p 2%nat + q 2%nat * p 3%nat
  | _ => - q 0%nat * p 0%nat - q 1%nat * p 1%nat - q 2%nat * p 2%nat + q 3%nat * p 3%nat end.

Section Quat.
  (* axisAngle2quat, inside updateQuat, called in Q L35 *)
  Variable aa2q : vec R -> vec R.
  (* updateQuat, called in Q L35 *)
  Definition updateQuat (q d : vec R) : vec R := qplus (aa2q d) q.
  (* _q, _p_q, _C: Qh L56-58 *)
  Record rotdv := { rq : vec R; rp : vec R; rC : mat R }.
  (* the constructor from a quaternion: Q L10; from a matrix, with r2quat as the argument: Q L12-16 *)
  Definition rot_new (q : vec R) : rotdv := {| rq := q; rp := q; rC := quat2r q |}.
  (* same code: Q L10, Q L12-16 *)
  Definition rot_new_C (r2quat : mat R -> vec R) (C : mat R) : rotdv := {| rq := r2quat C; rp := r2quat C; rC := C |}.
  (* updateImplementation Q L29-37; revertUpdateImplementation Q L22-26; setParametersImplementation Q L69-74; set Qh L41-44 *)
  Inductive rotop : Type := RUpdate (d : vec R) | RRevert | RSetParameters (q : vec R) | RSet (q : vec R).
  (* same code: Q L29-37, Q L22-26, Q L69-74, Qh L41-44 *)
  Definition rot_step (r : rotdv) (o : rotop) : rotdv :=
    match o with
    | RUpdate d => let q := updateQuat (rq r) d in {| rq := q; rp := rq r; rC := quat2r q |}
    | RRevert => {| rq := rp r; rp := rp r; rC := quat2r (rp r) |}
    | RSetParameters q => {| rq := q; rp := rq r; rC := quat2r q |}
    | RSet q => {| rq := q; rp := q; rC := quat2r q |}
    end.
  (* any sequence of these calls: Q L22-74 *)
  Definition rot_run (r : rotdv) (l : list rotop) : rotdv := fold_left rot_step l r.
End Quat.
