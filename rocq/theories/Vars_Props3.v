(** * C62 for matrix and quaternion expressions, the converse *)
From Coq Require Import Arith List ZArith NArith Bool Reals.
From Verif Require Import Lib_Ring Lib_Real Lib_Res MatrixStack_Model DesignVar_Base Jacobian_Model Jacobian_Spec Expr_Base Scalar_Model MatExpr_Model MatExpr_Spec MatExpr_Toy Vars_Spec Vars_Spec2 Vars_Proofs4 Vars_Toy3.
Import ListNotations.
Local Open Scope R_scope.

(** C62: without LEFT_TRANSLATED unit quaternions, and unless the null differential is handed to the expression itself, the container holds a block for exactly the reported
    active design variables, provided that is so for the expressions of other kinds below. *)
Theorem C62_matrix_blocks : forall X s al ops c rows,
  (forall e df, xright e -> df <> DNull -> Forall (leaf_exact s) (xleaves e) -> xjac X e s rows rows df = Ok ops -> jc_run _ sp_addJ al (sp_init rows) ops = Ok c -> blocks_of (jc_store c) (xdvs e)) /\
  (forall e, sxright e -> Forall (leaf_exact s) (sxleaves e) -> sxjac X e s rows = Ok ops -> jc_run _ sp_addJ al (sp_init rows) ops = Ok c -> blocks_of (jc_store c) (sxdvs e)).
Proof. exact matrix_blocks_exact. Qed.
Print Assumptions C62_matrix_blocks.
Example C62_matrix_blocks_ex : forall m, xright (eT m) /\ Forall (leaf_exact sT) (xleaves (eT m)) /\ (exists ops c, xjac XT (eT m) sT 3 3 (DId 3) = Ok ops /\ jc_run _ sp_addJ 16 (sp_init 3) ops = Ok c) /\ In dQ (xdvs (eT m)).
Proof. exact eT_exact. Qed.

(** C62, what does not hold: a LEFT_TRANSLATED unit quaternion is reported, its value is read, and it gets no block; with the null differential a reported vector gets none. *)
Theorem C62_matrix_refuted : forall X s m rows,
  (exists e d c, In d (xdvs e) /\ dv_active d = true /\ (forall k, xval X e s k 0%nat = s (dv_id d) k) /\ xjac X e s rows rows (DId 4) = Ok [] /\ jc_run _ sp_addJ 16 (sp_init rows) [] = Ok c /\ ~ blocks_of (jc_store c) (xdvs e) /\
     e = XQuat d m LEFT_TRANSLATED) /\
  (exists e d c, xright e /\ In d (xdvs e) /\ dv_active d = true /\ xjac X e s rows rows DNull = Ok [] /\ jc_run _ sp_addJ 16 (sp_init rows) [] = Ok c /\ ~ blocks_of (jc_store c) (xdvs e)).
Proof. exact no_blocks. Qed.
Print Assumptions C62_matrix_refuted.
