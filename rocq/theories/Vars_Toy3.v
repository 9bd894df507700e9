(** * C62: the converse for a concrete matrix expression, and where it fails (examples only) *)
From Coq Require Import Arith Lia List ZArith NArith Bool Reals Lra.
From Verif Require Import Lib_Ring Lib_Real Lib_Res MatrixStack_Model DesignVar_Base Jacobian_Model Jacobian_Spec Expr_Base Scalar_Model Scalar_Spec MatExpr_Model MatExpr_Spec MatExpr_Proofs4 MatExpr_Toy Vars_Spec Vars_Spec2 Vars_Toy2.
Import ListNotations.
Local Open Scope R_scope.

Lemma eT_exact : forall m, xright (eT m) /\ Forall (leaf_exact sT) (xleaves (eT m)) /\ (exists ops c, xjac XT (eT m) sT 3 3 (DId 3) = Ok ops /\ jc_run _ sp_addJ 16 (sp_init 3) ops = Ok c) /\ In dQ (xdvs (eT m)).
Proof.
  intros m. destruct (eT_reported m) as (_ & H & I1 & _). split; [|split; [|split; auto]].
  - cbn. repeat split; auto.
  - cbn [xleaves sxleaves eT app]. apply Forall_cons; [|apply Forall_cons; [|apply Forall_nil]]; intros o d E; apply (f_equal (fun r => match r with Ok x => x | _ => [] end)) in E; cbn in E; subst; reflexivity.
Qed.
Lemma no_blocks : forall X s m rows,
  (exists e d c, In d (xdvs e) /\ dv_active d = true /\ (forall k, xval X e s k 0%nat = s (dv_id d) k) /\ xjac X e s rows rows (DId 4) = Ok [] /\ jc_run _ sp_addJ 16 (sp_init rows) [] = Ok c /\ ~ blocks_of (jc_store c) (xdvs e) /\
     e = XQuat d m LEFT_TRANSLATED) /\
  (exists e d c, xright e /\ In d (xdvs e) /\ dv_active d = true /\ xjac X e s rows rows DNull = Ok [] /\ jc_run _ sp_addJ 16 (sp_init rows) [] = Ok c /\ ~ blocks_of (jc_store c) (xdvs e)).
Proof.
  intros X s m rows. split.
  - exists (XQuat dQ m LEFT_TRANSLATED), dQ. eexists. split; [left; auto|]. split; [reflexivity|]. split; [reflexivity|]. split; [reflexivity|]. split; [reflexivity|]. split; [|reflexivity].
    intros B. apply (proj2 (B (dv_id dQ))). exists dQ. split; [left; auto|]. split; reflexivity.
  - exists (XVec dQ), dQ. eexists. split; [exact I|]. split; [left; auto|]. split; [reflexivity|]. split; [reflexivity|]. split; [reflexivity|].
    intros B. apply (proj2 (B (dv_id dQ))). exists dQ. split; [left; auto|]. split; reflexivity.
Qed.
