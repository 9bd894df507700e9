(** * C62: concrete matrix expressions (examples only) *)
From Coq Require Import Arith Lia List ZArith NArith Bool Reals Lra.
From Verif Require Import Lib_Ring Lib_Real Lib_Res MatrixStack_Model DesignVar_Base Jacobian_Model Jacobian_Spec Expr_Base Scalar_Model Scalar_Spec MatExpr_Model MatExpr_Spec MatExpr_Proofs4 MatExpr_Toy Vars_Spec.
Import ListNotations.
Local Open Scope R_scope.

Definition sT9 : state := fun id k => if (id =? 9)%nat then -1 else sT id k.
Lemma eT_reported : forall m, Forall (leaf_reports sT) (xleaves (eT m)) /\ (exists ops c, xjac XT (eT m) sT 3 3 (DId 3) = Ok ops /\ jc_run _ sp_addJ 16 (sp_init 3) ops = Ok c) /\ In dQ (xdvs (eT m)) /\
  Forall (leaf_reads sT sT9) (xleaves (eT m)) /\ agree (xdvs (eT m)) sT sT9 /\ sT9 9%nat <> sT 9%nat.
Proof.
  intros m. destruct (eT_hyps m) as (H1 & H2 & H3 & H4 & H5 & H6 & H7 & H8).
  destruct (matrix_jacobian XT (kdT m) (eT m) sT (DId 3) 3 16 H1 H2 H3 H4 H5 ltac:(lia) ltac:(reflexivity) H6 H7) as (ops & c & J & C & _).
  split; [|split; [exists ops, c; auto|split; [exact H8|split; [|split]]]].
  - cbn [xleaves sxleaves eT app]. apply Forall_cons; [|apply Forall_cons; [|apply Forall_nil]]; intros o d E I; apply (f_equal (fun r => match r with Ok x => x | _ => [] end)) in E; cbn in E; subst; exact I.
  - cbn [xleaves sxleaves eT app]. apply Forall_cons; [|apply Forall_cons; [|apply Forall_nil]]; intros A; (split; [apply A; cbn; auto|reflexivity]).
  - intros d H. cbn in H. repeat (destruct H as [<-|H]; [reflexivity|]). contradiction.
  - intros E. apply (f_equal (fun f => f 0%nat)) in E. cbn in E. lra.
Qed.
