(** * Reported design variables: the statements of C62 for each family of expressions *)
From Coq Require Import Arith Lia List ZArith Bool Reals.
From Verif Require Import Lib_Ring Lib_Real Lib_Res MatrixStack_Model DesignVar_Base Jacobian_Model Expr_Base Scalar_Model Geo_Model Geo_Spec Vars_Model Vars_Spec Vars_Proofs.
Import ListNotations.

Lemma blocks : forall al rows ops c l, jc_run _ sp_addJ al (sp_init rows) ops = Ok c -> (forall d, In d (ops_dvs ops) <-> In d l) -> blocks_of (jc_store c) l.
Proof.
  intros al rows ops c l H E id. rewrite (run_keys _ _ _ _ H). cbn. split.
  - intros [(d & D & A)|[]]. exists d. rewrite <- E. auto.
  - intros (d & D & A). left. exists d. rewrite E. auto.
Qed.
Lemma scalar_blocks : forall e s al ops c, sjac e s = Ok ops -> jc_run _ sp_addJ al (sp_init 1) ops = Ok c -> blocks_of (jc_store c) (sget e s).
Proof. intros. eapply blocks; [eassumption|]. apply (proj1 scalar_reported); auto. Qed.
Lemma vector_blocks : forall e s al ops c, vjac e s = Ok ops -> jc_run _ sp_addJ al (sp_init (vsize e)) ops = Ok c -> blocks_of (jc_store c) (vget e s).
Proof. intros. eapply blocks; [eassumption|]. apply (proj1 (proj2 scalar_reported)); auto. Qed.
Lemma generic_blocks : forall e s al ops c, gjac e s = Ok ops -> jc_run _ sp_addJ al (sp_init 1) ops = Ok c -> blocks_of (jc_store c) (gget e).
Proof. intros. eapply blocks; [eassumption|]. apply (generic_reported e s); auto. Qed.
Lemma geometric_blocks : forall X s al ops c,
  (forall e, sxjac X e s = Ok ops -> jc_run _ sp_addJ al (sp_init 1) ops = Ok c -> blocks_of (jc_store c) (sxget e)) /\
  (forall e, vxjac X e s = Ok ops -> jc_run _ sp_addJ al (sp_init (vxsize e)) ops = Ok c -> blocks_of (jc_store c) (vxget e)) /\
  (forall e, rxjac X e s = Ok ops -> jc_run _ sp_addJ al (sp_init 3) ops = Ok c -> blocks_of (jc_store c) (rxget e)) /\
  (forall e, txjac X e s = Ok ops -> jc_run _ sp_addJ al (sp_init 6) ops = Ok c -> blocks_of (jc_store c) (txget e)) /\
  (forall e, hxjac X e s = Ok ops -> jc_run _ sp_addJ al (sp_init 4) ops = Ok c -> blocks_of (jc_store c) (hxget e)).
Proof.
  intros X s al ops c. destruct (geo_reported X) as (H1 & H2 & _ & H4 & H5 & H6). split; [|split; [|split; [|split]]]; intros e J H; (eapply blocks; [eassumption|]);
    [apply (H1 e s)|apply (H2 e s)|apply (H4 e s)|apply (H5 e s)|apply (H6 e s)]; auto.
Qed.
Lemma scalar_reads : forall e s s', agree (sget e s) s s' -> Forall (fun u => u s = u s') (sconds e) -> sval e s = sval e s' /\ sjac e s = sjac e s' /\ sget e s = sget e s'.
Proof. exact (proj1 scalar_depends). Qed.
Lemma vector_reads : forall e s s', agree (vget e s) s s' -> Forall (fun u => u s = u s') (vconds e) -> vval e s = vval e s' /\ vjac e s = vjac e s' /\ vget e s = vget e s'.
Proof. exact (proj1 (proj2 scalar_depends)). Qed.
Lemma generic_reads : forall e s s', agree (gget e) s s' -> gval e s = gval e s' /\ gjac e s = gjac e s'.
Proof. exact generic_depends. Qed.
Lemma geometric_reads : forall X kinds s s', (forall id B, kinds id = KMat 0 B -> s id = s' id) ->
  (forall e, sxwf kinds e -> agree (sxget e) s s' -> sxval X e s = sxval X e s' /\ sxjac X e s = sxjac X e s') /\
  (forall e, vxwf kinds e -> agree (vxget e) s s' -> vxval X e s = vxval X e s' /\ vxjac X e s = vxjac X e s') /\
  (forall e, rxwf kinds e -> agree (rxget e) s s' -> rxval X e s = rxval X e s' /\ rxjac X e s = rxjac X e s') /\
  (forall e, txwf kinds e -> agree (txget e) s s' -> txval X e s = txval X e s' /\ txjac X e s = txjac X e s') /\
  (forall e, hxwf kinds e -> agree (hxget e) s s' -> hxval X e s = hxval X e s' /\ hxjac X e s = hxjac X e s').
Proof. intros X kinds s s' K. destruct (geo_depends X kinds s s' K) as (H1 & H2 & _ & H4 & H5 & H6). split; [|split; [|split; [|split]]]; intros e W A; [apply H1|apply H2|apply H4|apply H5|apply H6]; auto. Qed.
