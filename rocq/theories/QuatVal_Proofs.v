(** * C91: quaternion expressions compute quaternion algebra *)
From Coq Require Import Reals Lra Bool.
From Verif Require Import Lib_Ring Lib_Real MatExpr_Model.
From Verif Require Import QuatVal_Spec.
Open Scope R_scope.

Ltac opn := unfold as_quaternion, as_vec3, turned, hamilton, q_conjugate, q_imag, pure, q_norm2, q_one, dot, cross in *; cbn [real_first traditional] in *; cbn [qw qx qy qz v1 v2 v3] in *; unfold Nat.ltb in *; cbn [Nat.eqb Nat.leb Nat.add andb] in *.
Ltac ev := unfold col, cv, qmul, qmul43, qtrad44, qtrad34, qtrad43, qvec, qconj, qinvert, qimag, rI, iI, jI, kI, crossM, cross3; cbn [real_first traditional Nat.eqb Nat.leb Nat.ltb Nat.add andb].
Lemma bin_eq : forall X o a b s, xval X (XBin o a b) s = bin_val o (xcols a) (xcols b) (xval X a s) (xval X b s).
Proof. reflexivity. Qed.
Lemma un_eq : forall X o a s, xval X (XUn o a) s = un_val X o (xrows a) (xval X a s).
Proof. reflexivity. Qed.

Lemma product_v : forall X m a b s,
  as_quaternion m (xval X (XBin (BQMul m) a b) s) =
  (if traditional m then hamilton (as_quaternion m (xval X a s)) (as_quaternion m (xval X b s)) else hamilton (as_quaternion m (xval X b s)) (as_quaternion m (xval X a s))).
Proof. intros X [rf tr] a b s. rewrite bin_eq. generalize (xval X a s) (xval X b s). intros A B. cbn [bin_val]. destruct rf, tr; ev; opn; f_equal; ring. Qed.
Lemma conj_v : forall X m a s, as_quaternion m (xval X (XUn (UQConj m) a) s) = q_conjugate (as_quaternion m (xval X a s)).
Proof. intros X [rf tr] a s. rewrite un_eq. generalize (xval X a s). intros A. cbn [un_val]. destruct rf; opn; ev; unfold Nat.ltb; cbn [Nat.leb andb]; f_equal; ring. Qed.
Lemma imag_v : forall X m a s, as_vec3 (xval X (XUn (UQImag m) a) s) = q_imag (as_quaternion m (xval X a s)).
Proof. intros X [rf tr] a s. rewrite un_eq. generalize (xval X a s). intros A. cbn [un_val]. destruct rf; reflexivity. Qed.
Lemma cross_v : forall X a b s, xcols a = 1%nat -> as_vec3 (xval X (XBin BCross a b) s) = cross (as_vec3 (xval X a s)) (as_vec3 (xval X b s)).
Proof. intros X a b s Ha. rewrite bin_eq, Ha. generalize (xval X a s) (xval X b s). intros A B. reflexivity. Qed.
Lemma rotate_v : forall X m a b s, as_vec3 (xval X (XBin (BRotate m) a b) s) = turned (traditional m) (as_quaternion m (xval X a s)) (as_vec3 (xval X b s)).
Proof. intros X [rf tr] a b s. rewrite bin_eq. generalize (xval X a s) (xval X b s). intros A B. cbn [bin_val]. destruct rf, tr; ev; unfold Nat.ltb; cbn [Nat.leb andb]; opn; f_equal; ring. Qed.
Lemma inverse_v : forall X m a s, q_norm2 (as_quaternion m (xval X a s)) <> 0 ->
  let q := as_quaternion m (xval X a s) in let q' := as_quaternion m (xval X (XUn (UQInverse m) a) s) in hamilton q q' = q_one /\ hamilton q' q = q_one.
Proof.
  intros X [rf tr] a s H. cbv zeta. revert H. rewrite un_eq. generalize (xval X a s). intros A. cbn [un_val].
  set (n := q_norm2 (as_quaternion {| real_first := rf; traditional := tr |} A)). intros H.
  assert (as_quaternion {| real_first := rf; traditional := tr |} (col (qinvert {| real_first := rf; traditional := tr |} (cv A))) =
    let q := as_quaternion {| real_first := rf; traditional := tr |} A in Quaternion (qw q / n) (- qx q / n) (- qy q / n) (- qz q / n)) as ->.
  { assert (vdot 4 (qconj {| real_first := rf; traditional := tr |} (cv A)) (qconj {| real_first := rf; traditional := tr |} (cv A)) = n) as Nq by (unfold n, q_norm2, as_quaternion; clear n H; destruct rf, tr; cbn; unfold cv; ring).
    cbv zeta. unfold as_quaternion at 1. unfold col, qinvert. rewrite Nq. clearbody n. unfold as_quaternion. destruct rf; cbn; f_equal; unfold cv; field; auto. }
  cbv zeta. unfold n in *. destruct (as_quaternion {| real_first := rf; traditional := tr |} A) as [w x y z]. opn. split; f_equal; field; auto.
Qed.

Lemma dot_turned : forall t q u v, q_norm2 q = 1 -> dot (turned t q u) (turned t q v) = dot u v.
Proof.
  intros t [w x y z] [a b c] [d e f] H. transitivity (q_norm2 (Quaternion w x y z) ^ 2 * dot (Vec3 a b c) (Vec3 d e f)); [|rewrite H; ring]. clear H. destruct t; opn; ring.
Qed.
Lemma cross_turned : forall t q u v, q_norm2 q = 1 -> cross (turned t q u) (turned t q v) = turned t q (cross u v).
Proof.
  intros t [w x y z] [a b c] [d e f] H.
  assert (forall k, k = q_norm2 (Quaternion w x y z) * k) as E by (intros; rewrite H; ring).
  set (T := turned t _ (cross _ _)). transitivity (Vec3 (q_norm2 (Quaternion w x y z) * v1 T) (q_norm2 (Quaternion w x y z) * v2 T) (q_norm2 (Quaternion w x y z) * v3 T)).
  - unfold T. clear. destruct t; opn; f_equal; ring.
  - rewrite <- !E. destruct T; reflexivity.
Qed.
Lemma h_assoc : forall a b c, hamilton (hamilton a b) c = hamilton a (hamilton b c).
Proof. intros [a b c d] [e f g h] [i j k l]. opn. f_equal; ring. Qed.
Lemma h_conj : forall a b, q_conjugate (hamilton a b) = hamilton (q_conjugate b) (q_conjugate a).
Proof. intros [a b c d] [e f g h]. opn. f_equal; ring. Qed.
Lemma pure_turned : forall (t : bool) q v, pure (turned t q v) = if t then hamilton (hamilton q (pure v)) (q_conjugate q) else hamilton (q_conjugate q) (hamilton (pure v) q).
Proof. intros t [w x y z] [a b c]. destruct t; opn; f_equal; ring. Qed.
Lemma turned_one : forall t v, turned t q_one v = v.
Proof. intros t [a b c]. destruct t; opn; f_equal; ring. Qed.
Lemma turned_twice : forall (t : bool) p q v, turned t (if t then hamilton p q else hamilton q p) v = turned t p (turned t q v).
Proof. intros [|] p q v; unfold turned at 1 2; rewrite pure_turned; rewrite h_conj, ?h_assoc; reflexivity. Qed.
Lemma turned_formula : forall (t : bool) q v, q_norm2 q = 1 -> let x := q_imag q in let s := if t then qw q else - qw q in
  turned t q v = Vec3 (v1 v + 2 * (s * v1 (cross x v) + v1 (cross x (cross x v)))) (v2 v + 2 * (s * v2 (cross x v) + v2 (cross x (cross x v)))) (v3 v + 2 * (s * v3 (cross x v) + v3 (cross x (cross x v)))).
Proof.
  intros t [w x y z] [a b c] H. cbv zeta.
  assert (w ^ 2 = 1 - x ^ 2 - y ^ 2 - z ^ 2) as E by (unfold q_norm2 in H; cbn [qw qx qy qz] in H; lra).
  destruct t; opn; f_equal; ring [E].
Qed.

Lemma rigid_v : forall X m a b c s, q_norm2 (as_quaternion m (xval X a s)) = 1 ->
  let rot e := as_vec3 (xval X (XBin (BRotate m) a e) s) in
  dot (rot b) (rot c) = dot (as_vec3 (xval X b s)) (as_vec3 (xval X c s)) /\ (xcols b = 1%nat -> cross (rot b) (rot c) = rot (XBin BCross b c)).
Proof. intros X m a b c s H rot. unfold rot. rewrite !rotate_v. split; [apply dot_turned; auto|]. intros Hb. rewrite cross_v by auto. apply cross_turned; auto. Qed.
Lemma compose_v : forall X m a b c s, as_vec3 (xval X (XBin (BRotate m) (XBin (BQMul m) a b) c) s) = as_vec3 (xval X (XBin (BRotate m) a (XBin (BRotate m) b c)) s).
Proof. intros. rewrite !rotate_v, product_v. apply turned_twice. Qed.
Lemma undo_v : forall X m a b s, q_norm2 (as_quaternion m (xval X a s)) <> 0 -> as_vec3 (xval X (XBin (BRotate m) (XUn (UQInverse m) a) (XBin (BRotate m) a b)) s) = as_vec3 (xval X b s).
Proof.
  intros X m a b s H. rewrite !rotate_v, <- turned_twice. destruct (inverse_v X m a s H) as [E1 E2]. destruct (traditional m); [rewrite E2|rewrite E1]; apply turned_one.
Qed.
Lemma direction_v : forall X m a b s, q_norm2 (as_quaternion m (xval X a s)) = 1 ->
  let q := as_quaternion m (xval X a s) in let x := q_imag q in let v := as_vec3 (xval X b s) in let w := if traditional m then qw q else - qw q in
  as_vec3 (xval X (XBin (BRotate m) a b) s) =
  Vec3 (v1 v + 2 * (w * v1 (cross x v) + v1 (cross x (cross x v)))) (v2 v + 2 * (w * v2 (cross x v) + v2 (cross x (cross x v)))) (v3 v + 2 * (w * v3 (cross x v) + v3 (cross x (cross x v)))).
Proof. intros X m a b s H. cbv zeta. rewrite rotate_v. exact (turned_formula (traditional m) _ _ H). Qed.
