(** * Reported design variables of matrix and quaternion expressions: the converse *)
From Coq Require Import Arith Lia List ZArith Bool Reals.
From Verif Require Import Lib_Ring Lib_Real Lib_Res MatrixStack_Model DesignVar_Base Jacobian_Model Expr_Base Scalar_Model MatExpr_Model MatExpr_Proofs3 Vars_Spec Vars_Spec2 Vars_Proofs Vars_Proofs2 Vars_Proofs3.
Import ListNotations.

Lemma addTo_has : forall rows d dv ops, d <> DNull -> addTo rows d dv = Ok ops -> In dv (ops_dvs ops).
Proof. intros rows d dv ops N H. destruct d; cbn [addTo] in H; unbind; unok; try (destruct (N eq_refl)); left; reflexivity. Qed.
Lemma addToJ_has : forall rows d dv J ops, d <> DNull -> addToJ rows d dv J = Ok ops -> In dv (ops_dvs ops).
Proof.
  intros rows d dv J ops N H. destruct d; cbn [addToJ] in H; unbind; unok; try (destruct (N eq_refl)); try (eapply addTo_has; [|eassumption]; discriminate); left; reflexivity.
Qed.
Lemma matrix_exact : forall X s,
  (forall e, xright e -> Forall (leaf_exact s) (xleaves e) -> forall rows m D ops, D <> DNull -> xjac X e s rows m D = Ok ops -> forall d, In d (xdvs e) -> In d (ops_dvs ops)) /\
  (forall e, sxright e -> Forall (leaf_exact s) (sxleaves e) -> forall rows ops, sxjac X e s rows = Ok ops -> forall d, In d (sxdvs e) -> In d (ops_dvs ops)).
Proof.
  intros X s. apply mx_sx_ind.
  - intros d _ _ rows m D ops N H x Hx. cbn [xjac xdvs] in *. destruct Hx as [<-|[]]. eapply addTo_has; eassumption.
  - intros d md g G _ rows m D ops N H x Hx. cbn [xjac xdvs xright] in *. subst g. destruct Hx as [<-|[]]. eapply addToJ_has; eassumption.
  - intros r c A _ _ rows m D ops N H x [].
  - intros o a IH G L rows m D ops N H x Hx. cbn [xjac] in H. refine (IH G L _ _ _ _ _ H x Hx); discriminate.
  - intros o a IHa b IHb G L rows m D ops N H x Hx. cbn [xjac xleaves xdvs xright] in *. apply Forall_app in L. destruct L, G. unbind. unok. rewrite ops_app. apply in_or_app. apply in_app_or in Hx.
    destruct Hx as [Hx|Hx]; [left; refine (IHa _ _ _ _ _ _ _ E x Hx)|right; refine (IHb _ _ _ _ _ _ _ E0 x Hx)]; try assumption; discriminate.
  - intros a IHa e IHe G L rows m D ops N H x Hx. cbn [xjac xleaves xdvs xright] in *. apply Forall_app in L. destruct L, G. unbind. unok. rewrite ops_app. apply in_or_app. apply in_app_or in Hx.
    destruct Hx as [Hx|Hx]; [left; refine (IHa _ _ _ _ _ _ _ E x Hx); try assumption; discriminate|]. right. apply under_in in E0. destruct E0 as (ops' & E0 & K). rewrite K. eapply IHe; eauto.
  - intros e IHe G L rows m D ops N H x Hx. cbn [xjac xleaves xdvs xright] in *. apply under_in in H. destruct H as (ops' & E0 & K). rewrite K. eapply IHe; eauto.
  - intros md a IH G L rows m D ops N H x Hx. cbn [xjac] in H. refine (IH G L _ _ _ _ _ H x Hx); discriminate.
  - intros md a IH G L rows m D ops N H x Hx. cbn [xjac] in H. refine (IH G L _ _ _ _ _ H x Hx); discriminate.
  - intros l G L rows m D ops N H x Hx. cbn [xjac xleaves xdvs] in *. apply Forall_cons_iff in L. destruct L as (L & _). apply under_in in H. destruct H as (ops' & E0 & K). rewrite K. apply (L _ x E0). auto.
  - intros l G L rows ops H x Hx. cbn [sxjac sxleaves sxdvs] in *. apply Forall_cons_iff in L. destruct L as (L & _). apply (L _ x H). auto.
  - intros a IH i k G L rows ops H x Hx. cbn [sxjac] in H. refine (IH G L _ _ _ _ _ H x Hx); discriminate.
  - intros a IH G L rows ops H x Hx. cbn [sxjac] in H. unbind. unok. rewrite ops_scope by exact I. match goal with K : xjac _ _ _ _ _ _ = Ok _ |- _ => refine (IH G L _ _ _ _ _ K x Hx); discriminate end.
Qed.
Lemma exact_reports : forall s ls, Forall (leaf_exact s) ls -> forall l ops, In l ls -> l_jac l s = Ok ops -> forall d, In d (ops_dvs ops) -> In d (l_dvs l).
Proof. intros s ls F l ops Il J d. rewrite Forall_forall in F. apply (F l Il ops d J). Qed.
Lemma matrix_blocks_exact : forall X s al ops c rows,
  (forall e df, xright e -> df <> DNull -> Forall (leaf_exact s) (xleaves e) -> xjac X e s rows rows df = Ok ops -> jc_run _ sp_addJ al (sp_init rows) ops = Ok c -> blocks_of (jc_store c) (xdvs e)) /\
  (forall e, sxright e -> Forall (leaf_exact s) (sxleaves e) -> sxjac X e s rows = Ok ops -> jc_run _ sp_addJ al (sp_init rows) ops = Ok c -> blocks_of (jc_store c) (sxdvs e)).
Proof.
  intros X s al ops c rows. destruct (matrix_exact X s) as [H1 H2]. destruct (matrix_reported X s) as [G1 G2]. split.
  - intros e df R N L J H. eapply blocks; [exact H|]. intros d. split; [apply (G1 e (exact_reports s _ L) _ _ _ _ J)|apply (H1 e R L _ _ _ _ N J)].
  - intros e R L J H. eapply blocks; [exact H|]. intros d. split; [apply (G2 e (exact_reports s _ L) _ _ J)|apply (H2 e R L _ _ J)].
Qed.
