(** * C55: matrix and quaternion expressions are differentiated correctly *)
From Coq Require Import Arith List ZArith NArith Bool Reals.
From Verif Require Import Lib_Ring Lib_Real Lib_Res Lib_MatInv MatrixStack_Model DesignVar_Base Jacobian_Model Jacobian_Spec Expr_Base Scalar_Model Scalar_Spec Scalar_Toy MatExpr_Model MatExpr_Spec
  MatExpr_Proofs2 MatExpr_Proofs4 MatExpr_Toy.
Import ListNotations.
Local Open Scope R_scope.

(** C55. For every nesting of matrix and quaternion operations, every state in the domain, every differential df below which the expression is evaluated, and either kind of
    design variable: evaluateJacobians fills the container, and its entry (i, j) for an active design variable is the derivative of component i of df applied to the value when
    the design variable is updated by h e_j. With df the identity this is the Jacobian of the expression.
    Missing: the expressions excluded by fits_in, for which the statement is false (see the refutations below); inverse() needs the operand to stay invertible near the state;
    the functions of sm::kinematics and Eigen's inverse are assumed correct (qkin_ok). *)
Theorem C55_jacobian_partial : forall X kd e s df m al, qkin_ok X -> xwf kd e -> xdom X kd s e -> diff_ok m (xrows e) (xcols e) df -> fits_in m m (kind_of df) e ->
  (0 < al)%nat -> (N.of_nat m < 65536)%N -> stack_room m al (xwidth e) (xdepth e) -> wf_dvs (xdvs e) ->
  exists ops c, xjac X e s m m df = Ok ops /\ jc_run _ sp_addJ al (sp_init m) ops = Ok c /\
    forall d i j, In d (xdvs e) -> dv_active d = true -> (i < m)%nat -> (j < dv_dim d)%nat ->
      derivable_pt_lim (fun h => applyInto df (xval X e (pert X kd s d j h)) i) 0 (jacobian_entry (jc_store c) d i j).
Proof. exact matrix_jacobian. Qed.
Print Assumptions C55_jacobian_partial.
Example C55_jacobian_ex : forall m, qkin_ok XT /\ xwf (kdT m) (eT m) /\ xdom XT (kdT m) sT (eT m) /\ diff_ok 3 3 1 (DId 3) /\ fits_in 3 3 KId (eT m) /\ stack_room 3 16 (xwidth (eT m)) (xdepth (eT m)) /\ wf_dvs (xdvs (eT m)) /\ In dQ (xdvs (eT m)).
Proof. exact eT_hyps. Qed.
Example C55_jacobian_ex2 : forall m, qkin_ok XT /\ xwf (kdT m) oT /\ xdom XT (kdT m) sT oT /\ diff_ok 3 (xrows oT) (xcols oT) dT /\ fits_in 3 3 (kind_of dT) oT /\ stack_room 3 16 (xwidth oT) (xdepth oT) /\ wf_dvs (xdvs oT) /\ In dP (xdvs oT).
Proof. exact oT_hyps. Qed.

(** C55, scalar expressions made from matrix expressions (toScalarExpression, squaredNorm), in a container with one row. *)
Theorem C55_scalar_partial : forall X kd e s al, qkin_ok X -> sxwf kd e -> sxdom X kd s e -> sfits_in 1 e -> (0 < al)%nat -> stack_room 1 al (sxwidth e) (sxdepth e) -> wf_dvs (sxdvs e) ->
  exists ops c, sxjac X e s 1 = Ok ops /\ jc_run _ sp_addJ al (sp_init 1) ops = Ok c /\
    forall d j, In d (sxdvs e) -> dv_active d = true -> (j < dv_dim d)%nat -> derivable_pt_lim (fun h => sxval X e (pert X kd s d j h)) 0 (jacobian_entry (jc_store c) d 0 j).
Proof. exact sx_jacobian. Qed.
Print Assumptions C55_scalar_partial.
Example C55_scalar_ex : forall m, qkin_ok XT /\ sxwf (kdT m) (cT m) /\ sxdom XT (kdT m) sT (cT m) /\ sfits_in 1 (cT m) /\ stack_room 1 16 (sxwidth (cT m)) (sxdepth (cT m)) /\ wf_dvs (sxdvs (cT m)) /\ In dP (sxdvs (cT m)).
Proof. exact cT_hyps. Qed.

(** One unary operation: the differential propagated to the operand, at its current value, is the first-order change of the result. *)
Theorem C55_unary : forall X o r c F T, qkin_ok X -> un_wf o r c -> mtan r c F T -> curve_dom o r F -> mtan (un_rows o r c) (un_cols o r c) (fun h => un_val X o r (F h)) (un_diff X o r (F 0) T).
Proof. exact unary_tan. Qed.
Print Assumptions C55_unary.
Example C55_unary_ex : mtan 3 3 cvT (fun i k => if (i =? 0)%nat && (k =? 1)%nat then 1 else 0) /\ un_wf UInverse 3 3 /\ curve_dom UInverse 3 cvT.
Proof. exact cvT_hyps. Qed.

(** One binary operation: the two differentials add up to the first-order change of the result. *)
Theorem C55_binary : forall o ra ca rb cb F G T U, bin_wf o ra ca rb cb -> mtan ra ca F T -> mtan rb cb G U ->
  mtan (bin_rows o ra rb) (bin_cols o ca cb) (fun h => bin_val o ca cb (F h) (G h)) (madd (bin_dl o ca cb (F 0) (G 0) T) (bin_dr o ca cb (F 0) (G 0) U)).
Proof. exact bin_tan. Qed.
Print Assumptions C55_binary.
Example C55_binary_ex : forall m, mtan 4 1 cqT (fun i _ => if (i =? 3)%nat then 0 else INR i) /\ mtan 3 1 cqT (fun i _ => INR i) /\ un_wf (UQInverse m) 4 1 /\ curve_dom (UQInverse m) 4 cqT /\ bin_wf (BRotate m) 4 1 3 1.
Proof. exact cqT_hyps. Qed.

(** Conversion of a differential to a matrix for the Jacobian container: the matrix times any vector is the differential applied to the vector.
    Missing: differentials that compose a matrix with a further differential (false, see below). *)
Theorem C55_conversion_partial : forall m n d, diff_ok m n 1 d -> kind_of d <> KMat -> exists J, convert m n d = Ok (mkD m n J) /\ forall A i, (i < m)%nat -> applyInto d A i = mvmul n J (cv A) i.
Proof. exact convert_lemma. Qed.
Print Assumptions C55_conversion_partial.
Example C55_conversion_ex : diff_ok 2 3 1 d1T /\ kind_of d1T <> KMat.
Proof. exact d1T_ok. Qed.

(** The matrix computed column by column when a design variable is reached. *)
Theorem C55_columns : forall m r d, diff_ok m r 1 d -> exists J, calcJac m r d = Ok (mkD m r J) /\ forall A i, (i < m)%nat -> applyInto d A i = mvmul r J (cv A) i.
Proof. exact calc_lemma. Qed.
Print Assumptions C55_columns.

(** The scalar and vector expressions of C51 can be operands. *)
Theorem C55_scalar_operand : forall X e s, swf e -> sdom e s -> leaf_ok X (fun _ => None) s (leaf_of_s e).
Proof. exact leaf_s_ok. Qed.
Print Assumptions C55_scalar_operand.
Example C55_scalar_operand_ex : swf ex1 /\ sdom ex1 st.
Proof. exact ex1_leaf. Qed.
Theorem C55_vector_operand : forall X e s, vwf e -> vdom e s -> leaf_ok X (fun _ => None) s (leaf_of_v e).
Proof. exact leaf_v_ok. Qed.
Print Assumptions C55_vector_operand.
Example C55_vector_operand_ex : vwf ex2 /\ vdom ex2 st.
Proof. exact ex2_leaf. Qed.

(** Refuted: a matrix composed with a further differential is converted to the first matrix alone: here 1 instead of -1. *)
Theorem C55_conversion_refuted : exists d, diff_ok 1 1 1 d /\ convert 1 1 d = Ok (mkD 1 1 (fun _ _ => 1)) /\ applyInto d (fun _ _ => 1) 0%nat = -1.
Proof. exact convert_wrong. Qed.
Print Assumptions C55_conversion_refuted.

(** Refuted: conjugate(exp(v)) where v is an expression of another kind, at v = 0: the Jacobian of the imaginary part has the wrong sign. *)
Theorem C55_exp_refuted : forall X d m, qkin_ok X -> dv_dim d = 3%nat -> dv_active d = true -> (0 <= dv_block d)%Z -> forall s, (forall k, (k < 3)%nat -> s (dv_id d) k = 0) ->
  let e := XUn (UQConj m) (XExp m (XExt (vleaf d))) in let kd := fun _ => None in
  xwf kd e /\ xdom X kd s e /\ exists ops c, xjacobian X e s = Ok ops /\ jc_run _ sp_addJ 16 (sp_init 4) ops = Ok c /\
    forall j, (j < 3)%nat -> jacobian_entry (jc_store c) d (iI m + j) j = 1 /\ derivable_pt_lim (fun h => xval X e (pert X kd s d j h) (iI m + j)%nat 0%nat) 0 (-1).
Proof. exact exp_wrong. Qed.
Print Assumptions C55_exp_refuted.
Example C55_exp_refuted_ex : qkin_ok XT /\ dv_dim dP = 3%nat /\ dv_active dP = true /\ (0 <= dv_block dP)%Z /\ (forall k, (k < 3)%nat -> (fun _ _ => 0 : R) (dv_id dP) k = 0).
Proof. exact zero_hyps. Qed.

(** Refuted: squaredNorm of a composite vector writes a matrix with the wrong number of rows, whatever the state. *)
Theorem C55_squaredNorm_refuted : forall X d s, dv_dim d <> 1%nat -> sxjac X (SNorm (XUn UNegate (XVec d))) s 1 = UB.
Proof. exact norm_ub. Qed.
Print Assumptions C55_squaredNorm_refuted.

(** Refuted: so does an entry (toScalarExpression) used inside a matrix expression with several rows. *)
Theorem C55_entry_refuted : forall X d s, dv_dim d <> 1%nat -> xjacobian X (XScaleS (XVec d) (SEntry (XVec d) 0 0)) s = UB.
Proof. exact entry_ub. Qed.
Print Assumptions C55_entry_refuted.

(** Refuted: a LEFT_TRANSLATED unit quaternion contributes nothing, although its derivative at the identity is 1. *)
Theorem C55_left_translated_refuted : forall X d m, qkin_ok X -> dv_dim d = 3%nat -> forall s, (forall i, (i < 4)%nat -> s (dv_id d) i = from_last m (fun i => delta i 3) i) ->
  let e := XQuat d m LEFT_TRANSLATED in let kd := fun id => if (id =? dv_id d)%nat then Some (m, LEFT_TRANSLATED) else None in
  xwf kd e /\ xjacobian X e s = Ok [] /\ forall j, (j < 3)%nat -> derivable_pt_lim (fun h => xval X e (pert X kd s d j h) (iI m + j)%nat 0%nat) 0 1.
Proof. exact left_wrong. Qed.
Print Assumptions C55_left_translated_refuted.
Example C55_left_translated_ex : forall m, qkin_ok XT /\ dv_dim dQ = 3%nat /\ (forall i, (i < 4)%nat -> (fun _ => from_last m (fun i => @delta R RRing i 3)) (dv_id dQ) i = from_last m (fun i => delta i 3) i).
Proof. exact ident_hyps. Qed.
