(** * Reported design variables: proofs *)
From Coq Require Import Arith Lia List ZArith Bool Reals.
From Verif Require Import Lib_Ring Lib_Real Lib_Res MatrixStack_Model DesignVar_Base Jacobian_Model Expr_Base Scalar_Model Scalar_Spec Scalar_Proofs Geo_Model Geo_Spec Geo_Main Vars_Model Vars_Spec.
Import ListNotations.

(** ** containers: the variables that get a block *)
Lemma ops_app : forall a b : list (@cop R), ops_dvs (a ++ b) = ops_dvs a ++ ops_dvs b.
Proof. intros. apply flat_map_app. Qed.
Lemma sp_addJ_keys : forall m d J m', sp_addJ m d J = Ok m' -> forall id, In id (key_ids m') <-> id = dv_id d \/ In id (key_ids m).
Proof.
  unfold key_ids. induction m as [|[d' M] m IH]; cbn [sp_addJ]; intros d J m' H id.
  - injection H as <-. cbn. intuition.
  - destruct (dv_block d <? dv_block d')%Z. { injection H as <-. cbn. intuition. }
    destruct (dv_block d' <? dv_block d)%Z.
    + destruct (sp_addJ m d J) as [t'| |] eqn:E; cbn in H; try discriminate. injection H as <-. cbn. rewrite (IH _ _ _ E). tauto.
    + destruct (dv_id d =? dv_id d')%nat eqn:Ei; cbn in H; [|discriminate]. apply Nat.eqb_eq in Ei.
      destruct (same_dims M J); [|discriminate]. injection H as <-. cbn. rewrite Ei. intuition.
Qed.
Lemma step_keys : forall al c o c', jc_step jmap sp_addJ al c o = Ok c' -> forall id,
  In id (key_ids (jc_store c')) <-> (exists d, In d (ops_dvs [o]) /\ dv_active d = true /\ dv_id d = id) \/ In id (key_ids (jc_store c)).
Proof.
  intros al c o c' H id. destruct o; cbn [jc_step ops_dvs flat_map app] in *.
  - unfold jc_apply in H. destruct (match ms_headers _ with [] => _ | _ => _ end); [discriminate|]. destruct (ms_push _ _ _); cbn in H; try discriminate. injection H as <-. cbn. firstorder.
  - unfold jc_apply_scalar in H. destruct (ms_push_scalar _ _ _); cbn in H; try discriminate. injection H as <-. cbn. firstorder.
  - unfold jc_end in H. destruct (ms_pop _); cbn in H; try discriminate. injection H as <-. cbn. firstorder.
  - assert ((exists x, In x [d] /\ dv_active x = true /\ dv_id x = id) <-> dv_active d = true /\ dv_id d = id) as ->.
    { split; [intros (x & [<-|[]] & A); auto|intros A; exists d; split; [left; auto|auto]]. }
    unfold jc_add in H. destruct (negb (_ =? _)%nat); [discriminate|]. destruct (dv_active d); cbn [negb] in H; [|injection H as <-; intuition congruence].
    destruct (_ <? _)%Z; [discriminate|]. destruct (ms_headers _).
    + destruct (negb _); [discriminate|]. destruct (sp_addJ _ _ _) eqn:E; cbn in H; try discriminate. injection H as <-. cbn. rewrite (sp_addJ_keys _ _ _ _ E). intuition congruence.
    + destruct (ms_top _); cbn in H; try discriminate. destruct (negb _); [discriminate|]. destruct (sp_addJ _ _ _) eqn:E; cbn in H; try discriminate. injection H as <-. cbn. rewrite (sp_addJ_keys _ _ _ _ E). intuition congruence.
  - assert ((exists x, In x [d] /\ dv_active x = true /\ dv_id x = id) <-> dv_active d = true /\ dv_id d = id) as ->.
    { split; [intros (x & [<-|[]] & A); auto|intros A; exists d; split; [left; auto|auto]]. }
    unfold jc_add_id in H. destruct (dv_active d); cbn [negb] in H; [|injection H as <-; intuition congruence].
    destruct (_ <? _)%Z; [discriminate|]. destruct (ms_headers _).
    + destruct (sp_addJ _ _ _) eqn:E; cbn in H; try discriminate. injection H as <-. cbn. rewrite (sp_addJ_keys _ _ _ _ E). intuition congruence.
    + destruct (ms_top _); cbn in H; try discriminate. destruct (sp_addJ _ _ _) eqn:E; cbn in H; try discriminate. injection H as <-. cbn. rewrite (sp_addJ_keys _ _ _ _ E). intuition congruence.
Qed.
Lemma run_keys : forall al ops c c', jc_run jmap sp_addJ al c ops = Ok c' -> forall id,
  In id (key_ids (jc_store c')) <-> (exists d, In d (ops_dvs ops) /\ dv_active d = true /\ dv_id d = id) \/ In id (key_ids (jc_store c)).
Proof.
  induction ops as [|o ops IH]; cbn [jc_run]; intros c c' H id.
  - injection H as <-. cbn. firstorder.
  - destruct (jc_step jmap sp_addJ al c o) as [c1| |] eqn:E; cbn [bind] in H; try discriminate. rewrite (IH _ _ H), (step_keys _ _ _ _ E).
    change (o :: ops) with ([o] ++ ops). rewrite ops_app.
    split; [intros [(d & A & B)|[(d & A & B)|A]]|intros [(d & A & B)|A]]; auto.
    + left. exists d. split; auto. apply in_or_app; auto.
    + left. exists d. split; auto. apply in_or_app; auto.
    + apply in_app_or in A. destruct A; [right; left|left]; exists d; auto.
Qed.

(** ** the calls add to exactly the reported variables *)
Lemma ops_scope : forall o (a : list (@cop R)), match o with CAdd _ _ | CAddId _ => False | _ => True end -> ops_dvs (scope o a) = ops_dvs a.
Proof. intros o l H. destruct o; try destruct H; unfold scope; cbn; rewrite flat_map_app, app_nil_r; auto. Qed.
Ltac unbind := repeat match goal with
  | H : bind ?x _ = Ok _ |- _ => let E := fresh "E" in destruct x eqn:E; cbn [bind] in H; try discriminate H
  | H : (if ?b then _ else _) = Ok _ |- _ => destruct b; try discriminate H
  end.
Lemma ok_inj : forall A (a b : A), Ok a = Ok b -> b = a.
Proof. congruence. Qed.
Ltac unok := try (match goal with H : Ok _ = Ok _ |- _ => apply ok_inj in H; subst end).
Ltac keys := repeat rewrite ?ops_app, ?ops_scope by exact I; repeat rewrite in_app_iff.
Lemma scalar_reported :
  (forall e s ops, sjac e s = Ok ops -> forall d, In d (ops_dvs ops) <-> In d (sget e s)) /\
  (forall v s ops, vjac v s = Ok ops -> forall d, In d (ops_dvs ops) <-> In d (vget v s)) /\
  (forall l n i s ops, ljac n i l s = Ok ops -> forall d, In d (ops_dvs ops) <-> In d (lget l s)).
Proof.
  apply expr_ind; intros; cbn [sjac vjac ljac sget vget lget] in *; 
    repeat match goal with H : (if ?b then _ else _) = Ok _ |- _ => destruct b eqn:?; try discriminate H end; unbind;
    unok; keys;
    repeat match goal with IH : (forall s ops, _ = Ok ops -> _), E : _ = Ok _ |- _ => rewrite (IH _ _ E); clear E end;
    repeat match goal with IH : (forall n i s ops, _ = Ok ops -> _), E : _ = Ok _ |- _ => rewrite (IH _ _ _ _ E); clear E end; try tauto; try reflexivity.
Qed.
Lemma generic_reported : forall e s ops, gjac e s = Ok ops -> forall d, In d (ops_dvs ops) <-> In d (gget e).
Proof.
  induction e; intros; cbn [gjac gget] in *; unbind; unok; keys;
    repeat match goal with IH : (forall s ops, _ = Ok ops -> _), E : _ = Ok _ |- _ => rewrite (IH _ _ E); clear E end; try tauto; try reflexivity.
Qed.
Lemma geo_reported : forall X,
  (forall e s ops, sxjac X e s = Ok ops -> forall d, In d (ops_dvs ops) <-> In d (sxget e)) /\
  (forall v s ops, vxjac X v s = Ok ops -> forall d, In d (ops_dvs ops) <-> In d (vxget v)) /\
  (forall l n i s ops, sljac X n i l s = Ok ops -> forall d, In d (ops_dvs ops) <-> In d (slget l)) /\
  (forall r s ops, rxjac X r s = Ok ops -> forall d, In d (ops_dvs ops) <-> In d (rxget r)) /\
  (forall t s ops, txjac X t s = Ok ops -> forall d, In d (ops_dvs ops) <-> In d (txget t)) /\
  (forall h s ops, hxjac X h s = Ok ops -> forall d, In d (ops_dvs ops) <-> In d (hxget h)).
Proof.
  intros X. apply geo_ind; intros; cbn [sxjac vxjac sljac rxjac txjac hxjac sxget vxget slget rxget txget hxget] in *; unbind;
    unok; keys;
    repeat match goal with IH : (forall s ops, _ = Ok ops -> _), E : _ = Ok _ |- _ => rewrite (IH _ _ E); clear E end;
    repeat match goal with IH : (forall n i s ops, _ = Ok ops -> _), E : _ = Ok _ |- _ => rewrite (IH _ _ _ _ E); clear E end; try tauto; try reflexivity;
    try (match goal with |- context [if ?b then _ else _] => destruct b end; cbn; tauto).
Qed.

(** ** values and calls depend on the reported variables only *)
Ltac split_agree := repeat match goal with
  | H : Forall _ (_ ++ _) |- _ => apply Forall_app in H; destruct H
  | H : Forall _ (_ :: _) |- _ => apply Forall_cons_iff in H; destruct H
  end.
Ltac use_ih := repeat match goal with
  | IH : (forall s s', (forall d, In d (?g s) -> _) -> Forall _ ?cs -> _), A : (forall d, In d _ -> ?s _ = ?s' _), F : Forall (fun k => k ?s = k ?s') ?cs |- _ =>
      let E1 := fresh "E" in let E2 := fresh "E" in let E3 := fresh "E" in
      destruct (IH s s') as (E1 & E2 & E3); [solve [intros ? ?; apply A; rewrite ?in_app_iff; auto]|exact F|]; clear IH end.
Lemma scalar_depends :
  (forall e s s', (forall d, In d (sget e s) -> s (dv_id d) = s' (dv_id d)) -> Forall (fun c => c s = c s') (sconds e) -> sval e s = sval e s' /\ sjac e s = sjac e s' /\ sget e s = sget e s') /\
  (forall v s s', (forall d, In d (vget v s) -> s (dv_id d) = s' (dv_id d)) -> Forall (fun c => c s = c s') (vconds v) -> vval v s = vval v s' /\ vjac v s = vjac v s' /\ vget v s = vget v s') /\
  (forall l s s', (forall d, In d (lget l s) -> s (dv_id d) = s' (dv_id d)) -> Forall (fun c => c s = c s') (lconds l) -> lval l s = lval l s' /\ (forall n i, ljac n i l s = ljac n i l s') /\ lget l s = lget l s').
Proof.
  apply expr_ind; intros; cbn [sjac vjac ljac sget vget lget sconds vconds lconds sval vval lval] in *; split_agree;
    try (match goal with H : ?u ?s = ?u ?s' |- context [if ?u ?s then _ else _] => rewrite <- H in *; destruct (u s) end); use_ih;
    try (split; [|split]; intros; repeat match goal with E : _ = _ |- _ => rewrite E; clear E | E : (forall n i, ljac n i _ _ = _) |- _ => rewrite E; clear E end; reflexivity).
  - rewrite (H d) by (left; auto). auto.
  - rewrite (H d) by (left; auto). auto.
Qed.
Lemma generic_depends : forall e s s', (forall d, In d (gget e) -> s (dv_id d) = s' (dv_id d)) -> gval e s = gval e s' /\ gjac e s = gjac e s'.
Proof.
  induction e; intros s s' H; cbn [gval gjac gget] in *;
    repeat match goal with IH : (forall s s', _ -> gval ?e s = _ /\ _) |- _ => destruct (IH s s') as [?E ?E]; [intros; apply H; rewrite ?in_app_iff; auto|]; clear IH end;
    repeat match goal with E : _ = _ |- _ => rewrite E; clear E end; auto.
  rewrite (H d) by (left; auto). auto.
Qed.
Lemma geo_depends : forall X kinds s s', (forall id B, kinds id = KMat 0 B -> s id = s' id) ->
  (forall e, sxwf kinds e -> (forall d, In d (sxget e) -> s (dv_id d) = s' (dv_id d)) -> sxval X e s = sxval X e s' /\ sxjac X e s = sxjac X e s') /\
  (forall v, vxwf kinds v -> (forall d, In d (vxget v) -> s (dv_id d) = s' (dv_id d)) -> vxval X v s = vxval X v s' /\ vxjac X v s = vxjac X v s') /\
  (forall l, slwf kinds l -> (forall d, In d (slget l) -> s (dv_id d) = s' (dv_id d)) -> slval X l s = slval X l s' /\ forall n i, sljac X n i l s = sljac X n i l s') /\
  (forall r, rxwf kinds r -> (forall d, In d (rxget r) -> s (dv_id d) = s' (dv_id d)) -> rxval X r s = rxval X r s' /\ rxjac X r s = rxjac X r s') /\
  (forall t, txwf kinds t -> (forall d, In d (txget t) -> s (dv_id d) = s' (dv_id d)) -> txval X t s = txval X t s' /\ txjac X t s = txjac X t s') /\
  (forall h, hxwf kinds h -> (forall d, In d (hxget h) -> s (dv_id d) = s' (dv_id d)) -> hxval X h s = hxval X h s' /\ hxjac X h s = hxjac X h s').
Proof.
  intros X kinds s s' Hz. apply geo_ind; intros; cbn [sxjac vxjac sljac rxjac txjac hxjac sxget vxget slget rxget txget hxget sxwf vxwf slwf rxwf txwf hxwf sxval vxval slval rxval txval hxval] in *;
    repeat match goal with W : _ /\ _ |- _ => destruct W end;
    repeat match goal with IH : (?W -> (forall d, In d _ -> _) -> _ /\ _), W' : ?W |- _ => 
      let E1 := fresh "E" in let E2 := fresh "E" in destruct (IH W') as [E1 E2]; [intros; match goal with A : (forall d, In d _ -> _) |- _ => apply A; rewrite ?in_app_iff; auto end|]; clear IH end;
    repeat match goal with E : _ = Ok _ |- _ => clear E | E : _ X _ s = _ |- _ => rewrite E; clear E | E : (forall n i, sljac X n i _ s = _) |- _ => rewrite E end; auto.
  - rewrite (H0 d) by (left; auto). auto.
  - rewrite (H0 d) by (left; auto). auto.
  - rewrite (H0 d) by (left; auto). auto.
  - assert (s (dv_id d) = s' (dv_id d)) as ->; auto. destruct (Nat.eqb_spec (dv_dim d) 0) as [Z|N].
    + rewrite Z in *. eapply Hz; eauto.
    + apply H1, in_or_app. left. left. auto.
  - split; auto. intros. match goal with E : forall n i, sljac X n i _ s = _ |- _ => rewrite E end. auto.
  - rewrite (H0 d) by (left; auto). auto.
  - rewrite (H0 d) by (left; auto). auto.
Qed.
