(** * C91: quaternion expressions compute quaternion algebra *)
From Coq Require Import Reals Lra Bool.
From Verif Require Import Lib_Ring Lib_Real MatExpr_Model.
From Verif Require Import QuatVal_Spec QuatVal_Proofs.
Open Scope R_scope.

(* the product is Hamilton's product, with the factors exchanged where the multiplication is not the traditional one *)
Theorem C91_product : forall X m a b s,
  as_quaternion m (xval X (XBin (BQMul m) a b) s) =
  (if traditional m then hamilton (as_quaternion m (xval X a s)) (as_quaternion m (xval X b s)) else hamilton (as_quaternion m (xval X b s)) (as_quaternion m (xval X a s))).
Proof. exact product_v. Qed.
Print Assumptions C91_product.
(* conjugate and imaginary part *)
Theorem C91_conjugate : forall X m a s, as_quaternion m (xval X (XUn (UQConj m) a) s) = q_conjugate (as_quaternion m (xval X a s)).
Proof. exact conj_v. Qed.
Print Assumptions C91_conjugate.
Theorem C91_imaginary : forall X m a s, as_vec3 (xval X (XUn (UQImag m) a) s) = q_imag (as_quaternion m (xval X a s)).
Proof. exact imag_v. Qed.
Print Assumptions C91_imaginary.
(* the inverse is the inverse on both sides *)
Theorem C91_inverse : forall X m a s, q_norm2 (as_quaternion m (xval X a s)) <> 0 ->
  let q := as_quaternion m (xval X a s) in let q' := as_quaternion m (xval X (XUn (UQInverse m) a) s) in hamilton q q' = q_one /\ hamilton q' q = q_one.
Proof. exact inverse_v. Qed.
Print Assumptions C91_inverse.
(* the cross product *)
Theorem C91_cross : forall X a b s, xcols a = 1%nat -> as_vec3 (xval X (XBin BCross a b) s) = cross (as_vec3 (xval X a s)) (as_vec3 (xval X b s)).
Proof. exact cross_v. Qed.
Print Assumptions C91_cross.
(* rotate3Vector turns by the quaternion *)
Theorem C91_rotate : forall X m a b s, as_vec3 (xval X (XBin (BRotate m) a b) s) = turned (traditional m) (as_quaternion m (xval X a s)) (as_vec3 (xval X b s)).
Proof. exact rotate_v. Qed.
Print Assumptions C91_rotate.
(* so with a unit quaternion it is a proper rotation: inner products and cross products go along *)
Theorem C91_rigid : forall X m a b c s, q_norm2 (as_quaternion m (xval X a s)) = 1 ->
  let rot e := as_vec3 (xval X (XBin (BRotate m) a e) s) in
  dot (rot b) (rot c) = dot (as_vec3 (xval X b s)) (as_vec3 (xval X c s)) /\
  (xcols b = 1%nat -> cross (rot b) (rot c) = rot (XBin BCross b c)).
Proof. exact rigid_v. Qed.
Print Assumptions C91_rigid.
(* the rotation by a product is the rotation by the second factor followed by the rotation by the first, in both conventions *)
Theorem C91_compose : forall X m a b c s, as_vec3 (xval X (XBin (BRotate m) (XBin (BQMul m) a b) c) s) = as_vec3 (xval X (XBin (BRotate m) a (XBin (BRotate m) b c)) s).
Proof. exact compose_v. Qed.
Print Assumptions C91_compose.
(* the rotation by the inverse undoes the rotation *)
Theorem C91_undo : forall X m a b s, q_norm2 (as_quaternion m (xval X a s)) <> 0 -> as_vec3 (xval X (XBin (BRotate m) (XUn (UQInverse m) a) (XBin (BRotate m) a b)) s) = as_vec3 (xval X b s).
Proof. exact undo_v. Qed.
Print Assumptions C91_undo.
(* the direction: the traditional rotation turns v by v + 2 (w (x cross v) + x cross (x cross v)), the other one the other way *)
Theorem C91_direction : forall X m a b s, q_norm2 (as_quaternion m (xval X a s)) = 1 ->
  let q := as_quaternion m (xval X a s) in let x := q_imag q in let v := as_vec3 (xval X b s) in let w := if traditional m then qw q else - qw q in
  as_vec3 (xval X (XBin (BRotate m) a b) s) =
  Vec3 (v1 v + 2 * (w * v1 (cross x v) + v1 (cross x (cross x v)))) (v2 v + 2 * (w * v2 (cross x v) + v2 (cross x (cross x v)))) (v3 v + 2 * (w * v3 (cross x v) + v3 (cross x (cross x v)))).
Proof. exact direction_v. Qed.
Print Assumptions C91_direction.
(* the quaternion (1 + i + j + k) / 2 turns the first axis into the second one, or into the third one in the other convention *)
Example C91_ex : forall X m s, let a := XConst 4 1 (fun _ _ => / 2) in let b := XConst 3 1 (fun i _ => if (i =? 0)%nat then 1 else 0) in
  q_norm2 (as_quaternion m (xval X a s)) = 1 /\ xcols b = 1%nat /\ as_vec3 (xval X (XBin (BRotate m) a b) s) = if traditional m then Vec3 0 1 0 else Vec3 0 0 1.
Proof.
  intros X [[] []] s; cbv zeta; (split; [unfold q_norm2, as_quaternion; cbn; lra|split; [reflexivity|]]); rewrite rotate_v; unfold turned, as_quaternion, as_vec3, q_imag, hamilton, q_conjugate, pure; cbn; f_equal; lra.
Qed.
