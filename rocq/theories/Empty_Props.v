(** * C58: empty expressions act as neutral elements

    heval, hrot and htrf are the values a user reads from a handle (VectorExpression::evaluate, toRotationMatrix, toTransformationMatrix); the value of an empty vector is zero and
    of an empty rotation or transformation the identity. The theorems hold for every expression, empty or not, unless they say otherwise. *)
From Coq Require Import Arith Lia List ZArith NArith Bool Reals Lra.
From Verif Require Import Lib_Ring Lib_Real Lib_Res MatrixStack_Model DesignVar_Base Jacobian_Model Scalar_Model Geo_Model Geo_Spec Geo_Algebra Geo_Toy Empty_Model Empty_Proofs Empty_Proofs2 Empty_Toy.
Import ListNotations.
Local Open Scope R_scope.

(** Summing any list of expressions, starting from an empty one, gives the sum of the values: empty members count as zero. *)
Theorem C58_sum : forall X s l xs, Forall2 (fun e v => heval X e s = Ok v) l xs -> heval X (fold_left e_add l HNull) s = Ok (fun i => 0 + lsum xs (fun v => v i)).
Proof. exact (fun X s l xs H => sum_val X s l HNull (fun _ => 0) xs eq_refl H). Qed.
Print Assumptions C58_sum.
Example C58_sum_ex : Forall2 (fun e v => heval toy_kin e toy_st = Ok v) toy_list [v123; (fun _ => 0); toy_st (dv_id gD); (fun _ => 0)].
Proof. exact toy_list_vals. Qed.

(** ... and its Jacobian is the concatenation of the members' Jacobian contributions. *)
Theorem C58_sum_jacobian : forall X s l js, Forall2 (fun e j => hejac X e s = Ok j) l js -> hejac X (fold_left e_add l HNull) s = Ok (concat js).
Proof. exact (fun X s l js H => sum_jac X s l HNull [] js eq_refl H). Qed.
Print Assumptions C58_sum_jacobian.
Example C58_sum_jacobian_ex : exists js, Forall2 (fun e j => hejac toy_kin e toy_st = Ok j) toy_list js /\ length (concat js) = 1%nat.
Proof. exact toy_list_jacs. Qed.

(** Negation, cross product, multiplication by a scalar. *)
Theorem C58_neg_cross_scale : forall X s a b x y, heval X a s = Ok x -> heval X b s = Ok y ->
  heval X (e_add a b) s = Ok (fun i => x i + y i) /\ heval X (e_neg a) s = Ok (fun i => - x i) /\ heval X (e_cross a b) s = Ok (mvmul 3 (crossm x) y) /\ forall e c, sxval X e s = Ok c -> heval X (e_scale a e) s = Ok (fun i => x i * c).
Proof. exact (fun X s a b x y Ha Hb => conj (add_val X s a b x y Ha Hb) (conj (neg_val X s a x Ha) (conj (cross_val X s a b x y Ha Hb) (fun e c H => scale_val X s a e x c Ha H)))). Qed.
Print Assumptions C58_neg_cross_scale.
Example C58_neg_cross_scale_ex : heval toy_kin HNull toy_st = Ok (fun _ => 0) /\ heval toy_kin (HNode (VxConst 3 v123)) toy_st = Ok v123.
Proof. exact (conj eq_refl eq_refl). Qed.

(** Subtraction, provided the left operand is not empty or both are. Missing: an empty left operand and a non-empty right one. *)
Theorem C58_sub_partial : forall X s a b x y, isEmpty a = false \/ isEmpty b = true -> heval X a s = Ok x -> heval X b s = Ok y -> heval X (e_sub a b) s = Ok (fun i => x i - y i).
Proof. exact sub_val. Qed.
Print Assumptions C58_sub_partial.
Example C58_sub_partial_ex : (isEmpty (HNode (VxConst 3 v123)) = false \/ isEmpty (@HNull vx) = true) /\ heval toy_kin (HNode (VxConst 3 v123)) toy_st = Ok v123.
Proof. exact (conj (or_introl eq_refl) eq_refl). Qed.
(** There the code returns +p, not -p (EuclideanExpression.cpp L56-64). *)
Theorem C58_sub_refuted : ~ (forall X s a b x y z, heval X a s = Ok x -> heval X b s = Ok y -> heval X (e_sub a b) s = Ok z -> z 0%nat = x 0%nat - y 0%nat).
Proof. exact (fun H => match sub_refuted with ex_intro _ a (ex_intro _ b (ex_intro _ x (ex_intro _ y (ex_intro _ z (conj Ha (conj Hb (conj Hz N))))))) => N (H toy_kin toy_st a b x y z Ha Hb Hz) end). Qed.
Print Assumptions C58_sub_refuted.

(** Subtraction of a constant: likewise. *)
Theorem C58_sub_constant_partial : forall X s a x c, isEmpty a = false -> heval X a s = Ok x -> heval X (e_subc a c) s = Ok (fun i => x i - c i).
Proof. exact subc_val. Qed.
Print Assumptions C58_sub_constant_partial.
Example C58_sub_constant_partial_ex : isEmpty (HNode (VxVar gD)) = false /\ heval toy_kin (HNode (VxVar gD)) toy_st = Ok (toy_st (dv_id gD)).
Proof. exact (conj eq_refl eq_refl). Qed.
Theorem C58_sub_constant_refuted : ~ (forall X s a c x z, heval X a s = Ok x -> heval X (e_subc a c) s = Ok z -> z 0%nat = x 0%nat - c 0%nat).
Proof. exact (fun H => match subc_refuted with ex_intro _ a (ex_intro _ c (ex_intro _ x (ex_intro _ z (conj Ha (conj Hz N))))) => N (H toy_kin toy_st a c x z Ha Hz) end). Qed.
Print Assumptions C58_sub_constant_refuted.

(** elementwiseMultiply has no check for empty operands: the product node holds a null pointer. *)
Theorem C58_elementwise_refuted : ~ (forall X s a b x y, heval X a s = Ok x -> heval X b s = Ok y -> heval X (e_elem a b) s <> UB).
Proof. exact (fun H => match elem_refuted with ex_intro _ a (ex_intro _ b (ex_intro _ x (ex_intro _ y (conj Ha (conj Hb N))))) => H toy_kin toy_st a b x y Ha Hb N end). Qed.
Print Assumptions C58_elementwise_refuted.

(** Rotations: products, inverses and application to a vector, with the empty rotation as identity. *)
Theorem C58_rotation : forall X s n a b p A B x, hrot X a s = Ok A -> hrot X b s = Ok B -> heval X p s = Ok x ->
  (exists C, hrot X (r_mul n a b) s = Ok C /\ meq 3 3 C (mmul 3 A B)) /\ (exists C, hrot X (r_inv n a) s = Ok C /\ meq 3 3 C (mtr A)) /\ (exists y, heval X (r_apply n a p) s = Ok y /\ veq 3 y (mvmul 3 A x)).
Proof. exact (fun X s n a b p A B x Ha Hb Hp => conj (rmul_val X s n a b A B Ha Hb) (conj (rinv_val X s n a A Ha) (rapply_val X s n a p A x Ha Hp))). Qed.
Print Assumptions C58_rotation.
Example C58_rotation_ex : hrot toy_kin HNull toy_st = Ok mid /\ hrot toy_kin (HNode (RxConst (axis_rot 2 1))) toy_st = Ok (axis_rot 2 1) /\ heval toy_kin (HNode (VxConst 3 v123)) toy_st = Ok v123.
Proof. exact (conj eq_refl (conj eq_refl eq_refl)). Qed.

(** Transformations: construction from parts either of which may be empty, products, and reading the parts back. *)
Theorem C58_transformation : forall X s n r p a b C x A B, hrot X r s = Ok C -> heval X p s = Ok x -> htrf X a s = Ok A -> htrf X b s = Ok B ->
  (exists T, htrf X (t_new r p) s = Ok T /\ meq 4 4 T (mk_T C x)) /\ (exists T, htrf X (t_mul n a b) s = Ok T /\ meq 4 4 T (mmul 4 A B)) /\
  (exists D, hrot X (t_rot a) s = Ok D /\ meq 3 3 D (rot_part A)) /\ (exists y, heval X (t_trans a) s = Ok y /\ veq 3 y (trans_part A)).
Proof. exact (fun X s n r p a b C x A B Hr Hp Ha Hb => conj (tnew_val X s r p C x Hr Hp) (conj (tmul_val X s n a b A B Ha Hb) (conj (trot_val X s a A Ha) (ttrans_val X s a A Ha)))). Qed.
Print Assumptions C58_transformation.
Example C58_transformation_ex : hrot toy_kin HNull toy_st = Ok mid /\ heval toy_kin (HNode (VxConst 3 v123)) toy_st = Ok v123 /\ htrf toy_kin (t_new HNull (HNode (VxConst 3 v123))) toy_st = Ok (mk_T mid v123) /\ htrf toy_kin HNull toy_st = Ok mid.
Proof. exact (conj eq_refl (conj eq_refl (conj eq_refl eq_refl))). Qed.

(** Inverting a transformation, empty or not: any matrix that undoes its value is the value of the inverse. *)
Theorem C58_inverse : forall X pd s n a A S, kinematics_ok X pd -> htrf X a s = Ok A -> rigid A -> meq 4 4 (mmul 4 S A) mid -> exists T, htrf X (t_inv n a) s = Ok T /\ meq 4 4 T S.
Proof. exact tinv_val. Qed.
Print Assumptions C58_inverse.
Example C58_inverse_ex : kinematics_ok toy_kin (fun _ => True) /\ htrf toy_kin (t_new HNull (HNode (VxConst 3 v123))) toy_st = Ok (mk_T mid v123) /\ rigid (mk_T mid v123) /\
  meq 4 4 (mmul 4 (rigid_inv (mk_T mid v123)) (mk_T mid v123)) mid.
Proof. exact (conj toy_kin_ok (conj eq_refl (conj (rigid_mk mid v123 rot_id) (rigid_inv_l _ (rigid_mk mid v123 rot_id))))). Qed.

(** Applying a transformation to a point, unless a non-empty transformation meets an empty point. *)
Theorem C58_transform_point_partial : forall X s n t p T x, isEmpty t = true \/ isEmpty p = false -> htrf X t s = Ok T -> rigid T -> heval X p s = Ok x ->
  exists y, heval X (t_apply n t p) s = Ok y /\ forall i, (i < 3)%nat -> y i = mvmul 3 (rot_part T) x i + trans_part T i.
Proof. exact tapply_val. Qed.
Print Assumptions C58_transform_point_partial.
Example C58_transform_point_partial_ex : htrf toy_kin HNull toy_st = Ok mid /\ rigid mid.
Proof. exact (conj eq_refl rigid_mid). Qed.
(** The missing case reaches a null pointer instead of giving the translation (TransformationExpression.cpp L82-91; the assertion of EuclideanExpression.cpp L15 is off in release builds). *)
Theorem C58_transform_empty_point_refuted : ~ (forall X s n t p T x, htrf X t s = Ok T -> heval X p s = Ok x -> heval X (t_apply n t p) s <> UB).
Proof. exact (fun H => match tapply_refuted with ex_intro _ t (ex_intro _ p (ex_intro _ T (ex_intro _ x (conj Ht (conj Hp N))))) => H toy_kin toy_st 0%nat t p T x Ht Hp N end). Qed.
Print Assumptions C58_transform_empty_point_refuted.

(** GenericScalarExpression: an empty one reads as zero, and the operators are right on non-empty operands. *)
Theorem C58_generic_partial : forall s, gval GNull s = Ok 0 /\ forall a b x y, a <> GNull -> b <> GNull -> gval a s = Ok x -> gval b s = Ok y ->
  gval (GAdd a b) s = Ok (x + y) /\ gval (GSub a b) s = Ok (x - y) /\ gval (GMul a b) s = Ok (x * y) /\ gval (GNeg a) s = Ok (- x).
Proof. exact generic_val. Qed.
Print Assumptions C58_generic_partial.
Example C58_generic_partial_ex : GConst 1 <> GNull /\ GConst 2 <> GNull /\ gval (GConst 1) toy_st = Ok 1 /\ gval (GConst 2) toy_st = Ok 2.
Proof. exact gen_ex. Qed.
(** Adding an empty generic scalar builds a node with a null operand: evaluating it dereferences null, although the empty one alone reads as zero. *)
Theorem C58_generic_refuted : ~ (forall s a b x y, gval a s = Ok x -> gval b s = Ok y -> gval (GAdd a b) s <> UB).
Proof. exact (fun H => match generic_refuted with ex_intro _ a (ex_intro _ b (ex_intro _ x (ex_intro _ y (conj Ha (conj Hb (conj N _)))))) => H toy_st a b x y Ha Hb N end). Qed.
Print Assumptions C58_generic_refuted.
