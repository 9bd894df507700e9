(** * C62 for matrix and quaternion expressions *)
From Coq Require Import Arith List ZArith NArith Bool Reals.
From Verif Require Import Lib_Ring Lib_Real Lib_Res MatrixStack_Model DesignVar_Base Jacobian_Model Jacobian_Spec Expr_Base Scalar_Model MatExpr_Model MatExpr_Spec MatExpr_Toy Vars_Spec Vars_Proofs2 Vars_Toy2.
Import ListNotations.
Local Open Scope R_scope.

(** C62: every block in the container belongs to a reported active design variable, provided that is so for the expressions of other kinds below.
    Missing: the converse; a left-translated quaternion and an operand below the null differential are reported but get no block. *)
Theorem C62_matrix_partial : forall X s al ops c rows,
  (forall e df, Forall (leaf_reports s) (xleaves e) -> xjac X e s rows rows df = Ok ops -> jc_run _ sp_addJ al (sp_init rows) ops = Ok c ->
     forall id, In id (key_ids (jc_store c)) -> exists d, In d (xdvs e) /\ dv_active d = true /\ dv_id d = id) /\
  (forall e, Forall (leaf_reports s) (sxleaves e) -> sxjac X e s rows = Ok ops -> jc_run _ sp_addJ al (sp_init rows) ops = Ok c ->
     forall id, In id (key_ids (jc_store c)) -> exists d, In d (sxdvs e) /\ dv_active d = true /\ dv_id d = id).
Proof. exact matrix_blocks. Qed.
Print Assumptions C62_matrix_partial.
(** C62: nothing but the reported design variables is read. *)
Theorem C62_matrix_reads : forall X s s',
  (forall e, Forall (leaf_reads s s') (xleaves e) -> agree (xdvs e) s s' -> xval X e s = xval X e s' /\ forall rows m df, xjac X e s rows m df = xjac X e s' rows m df) /\
  (forall e, Forall (leaf_reads s s') (sxleaves e) -> agree (sxdvs e) s s' -> sxval X e s = sxval X e s' /\ forall rows, sxjac X e s rows = sxjac X e s' rows).
Proof. exact matrix_reads. Qed.
Print Assumptions C62_matrix_reads.
Example C62_matrix_ex : forall m, Forall (leaf_reports sT) (xleaves (eT m)) /\ (exists ops c, xjac XT (eT m) sT 3 3 (DId 3) = Ok ops /\ jc_run _ sp_addJ 16 (sp_init 3) ops = Ok c) /\ In dQ (xdvs (eT m)) /\
  Forall (leaf_reads sT sT9) (xleaves (eT m)) /\ agree (xdvs (eT m)) sT sT9 /\ sT9 9%nat <> sT 9%nat.
Proof. exact eT_reported. Qed.
