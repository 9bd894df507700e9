(** * C62: getDesignVariables reports exactly the design variables an expression depends on *)
From Coq Require Import Arith List ZArith NArith Bool Reals.
From Verif Require Import Lib_Ring Lib_Real Lib_Res MatrixStack_Model DesignVar_Base Jacobian_Model Jacobian_Spec Expr_Base Scalar_Model Scalar_Spec Scalar_Toy Geo_Model Geo_Spec Geo_Toy
  Vars_Model Vars_Spec Vars_Proofs3 Vars_Toy.
Import ListNotations.
Local Open Scope R_scope.

(** C62, scalar expressions: when evaluateJacobians has filled a container, it holds a block for exactly the active design variables that getDesignVariables reports in the same state.
    Missing: the same for the variables reported in another state (false, see C62_piecewise_refuted). *)
Theorem C62_scalar_partial : forall e s al ops c, sjac e s = Ok ops -> jc_run _ sp_addJ al (sp_init 1) ops = Ok c -> blocks_of (jc_store c) (sget e s).
Proof. exact scalar_blocks. Qed.
Print Assumptions C62_scalar_partial.
Example C62_scalar_ex : exists ops c, sjac ex1 st = Ok ops /\ jc_run _ sp_addJ 16 (sp_init 1) ops = Ok c /\ In dp (sget ex1 st).
Proof. exact ex1_reported. Qed.

(** C62, vector expressions. *)
Theorem C62_vector_partial : forall e s al ops c, vjac e s = Ok ops -> jc_run _ sp_addJ al (sp_init (vsize e)) ops = Ok c -> blocks_of (jc_store c) (vget e s).
Proof. exact vector_blocks. Qed.
Print Assumptions C62_vector_partial.
Example C62_vector_ex : exists ops c, vjac ex2 st = Ok ops /\ jc_run _ sp_addJ 16 (sp_init (vsize ex2)) ops = Ok c /\ In dp (vget ex2 st).
Proof. exact ex2_reported. Qed.

(** C62, generic scalar expressions (here the reported variables do not depend on the state). *)
Theorem C62_generic : forall e s al ops c, gjac e s = Ok ops -> jc_run _ sp_addJ al (sp_init 1) ops = Ok c -> blocks_of (jc_store c) (gget e).
Proof. exact generic_blocks. Qed.
Print Assumptions C62_generic.
Example C62_generic_ex : exists ops c, gjac ex3 st = Ok ops /\ jc_run _ sp_addJ 16 (sp_init 1) ops = Ok c /\ In dx (gget ex3).
Proof. exact ex3_reported. Qed.

(** C62, Euclidean points, rotations, transformations, homogeneous points and the scalars made from them. *)
Theorem C62_geometric : forall X s al ops c,
  (forall e, sxjac X e s = Ok ops -> jc_run _ sp_addJ al (sp_init 1) ops = Ok c -> blocks_of (jc_store c) (sxget e)) /\
  (forall e, vxjac X e s = Ok ops -> jc_run _ sp_addJ al (sp_init (vxsize e)) ops = Ok c -> blocks_of (jc_store c) (vxget e)) /\
  (forall e, rxjac X e s = Ok ops -> jc_run _ sp_addJ al (sp_init 3) ops = Ok c -> blocks_of (jc_store c) (rxget e)) /\
  (forall e, txjac X e s = Ok ops -> jc_run _ sp_addJ al (sp_init 6) ops = Ok c -> blocks_of (jc_store c) (txget e)) /\
  (forall e, hxjac X e s = Ok ops -> jc_run _ sp_addJ al (sp_init 4) ops = Ok c -> blocks_of (jc_store c) (hxget e)).
Proof. exact geometric_blocks. Qed.
Print Assumptions C62_geometric.
Example C62_geometric_ex : (exists ops c, vxjac toy_kin toy_v toy_st = Ok ops /\ jc_run _ sp_addJ 16 (sp_init (vxsize toy_v)) ops = Ok c) /\ In gM (vxget toy_v) /\ In gD (vxget toy_v) /\
  (forall id B, toy_kinds id = KMat 0 B -> toy_st id = toy_st9 id) /\ vxwf toy_kinds toy_v /\ agree (vxget toy_v) toy_st toy_st9 /\ toy_st9 9%nat <> toy_st 9%nat.
Proof. exact toy_v_reported. Qed.

(** C62, nothing else is read: in two states that agree on the reported design variables (and on the conditions of piecewise nodes, which are the user's functions) value, calls to the
    container and reported variables are the same. *)
Theorem C62_scalar_reads : forall e s s', agree (sget e s) s s' -> Forall (fun u => u s = u s') (sconds e) -> sval e s = sval e s' /\ sjac e s = sjac e s' /\ sget e s = sget e s'.
Proof. exact scalar_reads. Qed.
Print Assumptions C62_scalar_reads.
Theorem C62_vector_reads : forall e s s', agree (vget e s) s s' -> Forall (fun u => u s = u s') (vconds e) -> vval e s = vval e s' /\ vjac e s = vjac e s' /\ vget e s = vget e s'.
Proof. exact vector_reads. Qed.
Print Assumptions C62_vector_reads.
Theorem C62_generic_reads : forall e s s', agree (gget e) s s' -> gval e s = gval e s' /\ gjac e s = gjac e s'.
Proof. exact generic_reads. Qed.
Print Assumptions C62_generic_reads.
Example C62_reads_ex : agree (sget ex1 st) st st9 /\ agree (vget ex2 st) st st9 /\ agree (gget ex3) st st9 /\ st9 9%nat 0%nat <> st 9%nat 0%nat.
Proof. exact ex_agree. Qed.
Example C62_reads_ex2 : agree (sget pw st) st st9 /\ Forall (fun u => u st = u st9) (sconds pw).
Proof. exact pw_conds. Qed.

(** C62, the same for geometric expressions. A MatrixBasic without free entries (kind KMat 0) is read but not reported: it cannot change, both states must agree on it. *)
Theorem C62_geometric_reads : forall X kinds s s', (forall id B, kinds id = KMat 0 B -> s id = s' id) ->
  (forall e, sxwf kinds e -> agree (sxget e) s s' -> sxval X e s = sxval X e s' /\ sxjac X e s = sxjac X e s') /\
  (forall e, vxwf kinds e -> agree (vxget e) s s' -> vxval X e s = vxval X e s' /\ vxjac X e s = vxjac X e s') /\
  (forall e, rxwf kinds e -> agree (rxget e) s s' -> rxval X e s = rxval X e s' /\ rxjac X e s = rxjac X e s') /\
  (forall e, txwf kinds e -> agree (txget e) s s' -> txval X e s = txval X e s' /\ txjac X e s = txjac X e s') /\
  (forall e, hxwf kinds e -> agree (hxget e) s s' -> hxval X e s = hxval X e s' /\ hxjac X e s = hxjac X e s').
Proof. exact geometric_reads. Qed.
Print Assumptions C62_geometric_reads.

(** An error term asks an expression for its design variables once, when it is constructed (ExpressionErrorTerm.hpp L99-107). For a piecewise expression, x if x < 2 and y otherwise, asked
    at x = 1, the answer is x alone; at x = 5 evaluateJacobians adds a block, with a nonzero entry, for y, which the error term does not have. *)
Theorem C62_piecewise_refuted : swf pw /\ sdom pw st5 /\ sget pw st = [dx] /\
  exists ops c, sjac pw st5 = Ok ops /\ jc_run _ sp_addJ 16 (sp_init 1) ops = Ok c /\ In (dv_id dy) (key_ids (jc_store c)) /\ ~ In (dv_id dy) (map (@dv_id R) (sget pw st)) /\ jacobian_entry (jc_store c) dy 0 0 = 1.
Proof. exact pw_wrong. Qed.
Print Assumptions C62_piecewise_refuted.
