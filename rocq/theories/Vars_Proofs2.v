(** * Reported design variables of matrix and quaternion expressions *)
From Coq Require Import Arith Lia List ZArith Bool Reals.
From Verif Require Import Lib_Ring Lib_Real Lib_Res MatrixStack_Model DesignVar_Base Jacobian_Model Expr_Base Scalar_Model MatExpr_Model MatExpr_Proofs3 Vars_Spec Vars_Proofs.
Import ListNotations.

Lemma addTo_in : forall rows d dv ops, addTo rows d dv = Ok ops -> forall x, In x (ops_dvs ops) -> x = dv.
Proof.
  intros rows d dv ops H x Hx. destruct d; cbn [addTo] in H; unbind; unok; cbn in Hx; intuition.
Qed.
Lemma addToJ_in : forall rows d dv J ops, addToJ rows d dv J = Ok ops -> forall x, In x (ops_dvs ops) -> x = dv.
Proof.
  intros rows d dv J ops H x Hx. destruct d; cbn [addToJ] in H; unbind; unok; try (eapply addTo_in; eassumption); cbn in Hx; intuition.
Qed.
Lemma under_in : forall m n d r ops, under m n d r = Ok ops -> exists ops', r = Ok ops' /\ ops_dvs ops = ops_dvs ops'.
Proof. intros m n d r ops H. unfold under in H. unbind. unok. eexists. split; [reflexivity|]. apply ops_scope. exact I. Qed.
Lemma matrix_reported : forall X s,
  (forall e, (forall l ops, In l (xleaves e) -> l_jac l s = Ok ops -> forall d, In d (ops_dvs ops) -> In d (l_dvs l)) ->
     forall rows m D ops, xjac X e s rows m D = Ok ops -> forall d, In d (ops_dvs ops) -> In d (xdvs e)) /\
  (forall e, (forall l ops, In l (sxleaves e) -> l_jac l s = Ok ops -> forall d, In d (ops_dvs ops) -> In d (l_dvs l)) ->
     forall rows ops, sxjac X e s rows = Ok ops -> forall d, In d (ops_dvs ops) -> In d (sxdvs e)).
Proof.
  intros X s. apply mx_sx_ind.
  - intros d _ rows m D ops H x Hx. cbn [xjac] in H. left. symmetry. eapply addTo_in; eassumption.
  - intros d md g _ rows m D ops H x Hx. cbn [xjac] in H. destruct g.
    + unok. destruct Hx.
    + left. symmetry. eapply addToJ_in; eassumption.
  - intros r c A _ rows m D ops H x Hx. cbn [xjac] in H. unok. destruct Hx.
  - intros o a IH L rows m D ops H x Hx. cbn [xjac] in H. eapply IH; eauto.
  - intros o a IHa b IHb L rows m D ops H x Hx. cbn [xjac xleaves xdvs] in *. unbind. unok. rewrite ops_app in Hx. apply in_app_or in Hx. apply in_or_app.
    destruct Hx as [Hx|Hx]; [left; eapply IHa|right; eapply IHb]; eauto using in_or_app.
  - intros a IHa e IHe L rows m D ops H x Hx. cbn [xjac xleaves xdvs] in *. unbind. unok. rewrite ops_app in Hx. apply in_app_or in Hx. apply in_or_app.
    destruct Hx as [Hx|Hx]; [left; eapply IHa; eauto using in_or_app|]. right. apply under_in in E0. destruct E0 as (ops' & E0 & K). rewrite K in Hx. eapply IHe; eauto using in_or_app.
  - intros e IHe L rows m D ops H x Hx. cbn [xjac xleaves xdvs] in *. apply under_in in H. destruct H as (ops' & E0 & K). rewrite K in Hx. eapply IHe; eauto.
  - intros md a IH L rows m D ops H x Hx. cbn [xjac] in H. eapply IH; eauto.
  - intros md a IH L rows m D ops H x Hx. cbn [xjac] in H. eapply IH; eauto.
  - intros l L rows m D ops H x Hx. cbn [xjac xleaves xdvs] in *. apply under_in in H. destruct H as (ops' & E0 & K). rewrite K in Hx. eapply L; eauto. left; auto.
  - intros l L rows ops H x Hx. cbn [sxjac sxleaves sxdvs] in *. eapply L; eauto. left; auto.
  - intros a IH i k L rows ops H x Hx. cbn [sxjac] in H. eapply IH; eauto.
  - intros a IH L rows ops H x Hx. cbn [sxjac] in H. unbind. unok. rewrite ops_scope in Hx by exact I. eapply IH; eauto.
Qed.
Lemma matrix_depends : forall X s s',
  (forall e, (forall l, In l (xleaves e) -> (forall d, In d (l_dvs l) -> s (dv_id d) = s' (dv_id d)) -> l_val l s = l_val l s' /\ l_jac l s = l_jac l s') ->
     (forall d, In d (xdvs e) -> s (dv_id d) = s' (dv_id d)) -> xval X e s = xval X e s' /\ forall rows m D, xjac X e s rows m D = xjac X e s' rows m D) /\
  (forall e, (forall l, In l (sxleaves e) -> (forall d, In d (l_dvs l) -> s (dv_id d) = s' (dv_id d)) -> l_val l s = l_val l s' /\ l_jac l s = l_jac l s') ->
     (forall d, In d (sxdvs e) -> s (dv_id d) = s' (dv_id d)) -> sxval X e s = sxval X e s' /\ forall rows, sxjac X e s rows = sxjac X e s' rows).
Proof.
  intros X s s'. apply mx_sx_ind; intros; cbn [xval sxval xjac sxjac xleaves sxleaves xdvs sxdvs] in *;
    repeat match goal with IH : _ -> _ -> _ /\ _, L : (forall l, In l _ -> _), A : (forall d, In d _ -> _) |- _ =>
      let E1 := fresh "E" in let E2 := fresh "E" in destruct IH as [E1 E2]; [solve [intros; apply L; rewrite ?in_app_iff; auto]|solve [intros; apply A; rewrite ?in_app_iff; auto]|] end;
    try (split; intros; repeat match goal with E : _ X _ s = _ |- _ => rewrite E; clear E | E : (forall rows, sxjac X _ s _ = _) |- _ => rewrite E; clear E | E : (forall rows m D, xjac X _ s _ _ _ = _) |- _ => rewrite E; clear E end; reflexivity).
  - rewrite (H0 d) by (left; auto). auto.
  - rewrite (H0 d) by (left; auto). auto.
  - destruct (H l) as [E1 E2]; [left; auto|auto|]. rewrite E1, E2. auto.
  - destruct (H l) as [E1 E2]; [left; auto|auto|]. rewrite E1, E2. auto.
Qed.
Lemma matrix_blocks : forall X s al ops c rows,
  (forall e df, Forall (leaf_reports s) (xleaves e) -> xjac X e s rows rows df = Ok ops -> jc_run _ sp_addJ al (sp_init rows) ops = Ok c ->
     forall id, In id (key_ids (jc_store c)) -> exists d, In d (xdvs e) /\ dv_active d = true /\ dv_id d = id) /\
  (forall e, Forall (leaf_reports s) (sxleaves e) -> sxjac X e s rows = Ok ops -> jc_run _ sp_addJ al (sp_init rows) ops = Ok c ->
     forall id, In id (key_ids (jc_store c)) -> exists d, In d (sxdvs e) /\ dv_active d = true /\ dv_id d = id).
Proof.
  intros X s al ops c rows. destruct (matrix_reported X s) as [H1 H2]. split.
  - intros e df L J H id K. rewrite Forall_forall in L. rewrite (run_keys _ _ _ _ H) in K. cbn in K. destruct K as [(d & D & A)|[]]. exists d. split; auto. eapply H1; eauto. intros l o Il Jl x. apply (L l Il o x Jl).
  - intros e L J H id K. rewrite Forall_forall in L. rewrite (run_keys _ _ _ _ H) in K. cbn in K. destruct K as [(d & D & A)|[]]. exists d. split; auto. eapply H2; eauto. intros l o Il Jl x. apply (L l Il o x Jl).
Qed.
Lemma matrix_reads : forall X s s',
  (forall e, Forall (leaf_reads s s') (xleaves e) -> agree (xdvs e) s s' -> xval X e s = xval X e s' /\ forall rows m df, xjac X e s rows m df = xjac X e s' rows m df) /\
  (forall e, Forall (leaf_reads s s') (sxleaves e) -> agree (sxdvs e) s s' -> sxval X e s = sxval X e s' /\ forall rows, sxjac X e s rows = sxjac X e s' rows).
Proof.
  intros X s s'. destruct (matrix_depends X s s') as [H1 H2]. split; intros e L A; [apply H1|apply H2]; auto; intros l Il; rewrite Forall_forall in L; exact (L l Il).
Qed.
