(** * Proofs about design variables *)
From Coq Require Import List Arith Bool Lia.
From Verif Require Import Lib_Res DV_Model DV_Spec.
Import ListNotations.

Ltac easy_class := intros h s _; split; intros x; (eexists; eexists; cbn; repeat split; reflexivity).

Section Cl.
Variable F : Type.
Variables (fzero : F) (fadd : F -> F -> F).
Variables (T : Type) (ofD : F -> T) (toD : T -> F) (tadd : T -> T -> T).
Variable bmul : list F -> list F.
Variables (yprmul : list F -> list F -> list F) (scale_col2 : F -> list F -> list F).
Variables (updateQuat : list F -> list F -> list F) (quat2r r2quat normalise : list F -> list F).
Variable gupdate : list F -> list F -> list F.
Variables (X : Type) (x_update : X -> list F -> X) (x_get : X -> list F) (x_set : X -> list F -> X).

Lemma rq_inv : forall h s0 s, rq_C s0 = quat2r (rq_q s0) -> dvrun (RotationQuaternion_class F updateQuat quat2r) h s0 = Ok s -> rq_C s = quat2r (rq_q s).
Proof.
  induction h as [|o h IH]; intros s0 s H0 H; cbn in H; [injection H as <-; auto|].
  destruct o; cbn in H; eapply IH; try exact H; reflexivity.
Qed.

Lemma all_restore :
  (forall p, restores (Scalar_class F fzero fadd) (Scalar_ctor F p)) /\
  (forall p, restores (ScalarDesignVariable_class F fzero fadd) (ScalarDesignVariable_ctor F p)) /\
  (forall p, restores (GenericScalar_class F fzero T ofD toD tadd) (GenericScalar_ctor T p)) /\
  (forall p, restores (EuclideanPoint_class F fadd) (EuclideanPoint_ctor F p)) /\
  (forall p, restores (MappedEuclideanPoint_class F fadd) (MappedEuclideanPoint_ctor F p)) /\
  (forall v, restores (DesignVariableVector_class F fadd) (DesignVariableVector_ctor F v)) /\
  (forall n, restores (DesignVariableVector_class F fadd) (DesignVariableVector_ctor_dim F fzero n)) /\
  (forall v, restores (DesignVariableMappedVector_class F fadd) (DesignVariableMappedVector_ctor F v)) /\
  (forall A, restores (MatrixBasic_class F fadd bmul) (MatrixBasic_ctor F A)) /\
  (forall C m, restores (EuclideanDirection_class F yprmul scale_col2) (EuclideanDirection_ctor F C m)) /\
  (forall p, restores (HomogeneousPoint_class F updateQuat) (HomogeneousPoint_ctor F normalise p)) /\
  (forall p, restores (MappedHomogeneousPoint_class F updateQuat) (MappedHomogeneousPoint_ctor F normalise p)) /\
  (forall q, restores (RotationQuaternion_class F updateQuat quat2r) (RotationQuaternion_ctor_q F quat2r q)) /\
  (forall q, restores (MappedRotationQuaternion_class F updateQuat quat2r) (MappedRotationQuaternion_ctor F quat2r q)) /\
  ((forall C, quat2r (r2quat C) = C) -> forall C, restores (RotationQuaternion_class F updateQuat quat2r) (RotationQuaternion_ctor_C F r2quat C)) /\
  ((forall x y, x_get (x_set y (x_get x)) = x_get x) -> forall x, restores (Adapter_class F X x_update x_get x_set) (Adapter_ctor F X x)) /\
  (forall v, restores_update (GenericVector_class F gupdate) (GenericVector_ctor F v)).
Proof.
  repeat match goal with |- _ /\ _ => split end.
  all: try (intros; easy_class).
  - intros q h s H. apply rq_inv in H; [|reflexivity]. split; intros x; eexists; eexists; cbn; repeat split; auto; cbn in *; congruence.
  - intros q h s H. apply (rq_inv h) in H; [|reflexivity]. split; intros x; eexists; eexists; cbn; repeat split; auto; cbn in *; congruence.
  - intros HC C h s H. apply rq_inv in H; [|cbn; rewrite HC; reflexivity].
    split; intros x; eexists; eexists; cbn; repeat split; auto; cbn in *; congruence.
  - intros HX x h s _. split; intros y; eexists; eexists; cbn; repeat split; auto; cbn in *; congruence.
  - intros v h s _ d. eexists; eexists; cbn; repeat split; reflexivity.
Qed.

Lemma all_settable :
  (forall p, settable (Scalar_class F fzero fadd) (Scalar_ctor F p)) /\
  (forall p, settable (ScalarDesignVariable_class F fzero fadd) (ScalarDesignVariable_ctor F p)) /\
  ((forall t, ofD (toD t) = t) -> forall p, settable (GenericScalar_class F fzero T ofD toD tadd) (GenericScalar_ctor T p)) /\
  (forall p, settable (EuclideanPoint_class F fadd) (EuclideanPoint_ctor F p)) /\
  (forall p, settable (MappedEuclideanPoint_class F fadd) (MappedEuclideanPoint_ctor F p)) /\
  (forall v, settable (DesignVariableVector_class F fadd) (DesignVariableVector_ctor F v)) /\
  (forall v, settable (DesignVariableMappedVector_class F fadd) (DesignVariableMappedVector_ctor F v)) /\
  (forall A, settable (MatrixBasic_class F fadd bmul) (MatrixBasic_ctor F A)) /\
  (forall C m, settable (EuclideanDirection_class F yprmul scale_col2) (EuclideanDirection_ctor F C m)) /\
  (forall p, settable (HomogeneousPoint_class F updateQuat) (HomogeneousPoint_ctor F normalise p)) /\
  (forall p, settable (MappedHomogeneousPoint_class F updateQuat) (MappedHomogeneousPoint_ctor F normalise p)) /\
  (forall q, settable (RotationQuaternion_class F updateQuat quat2r) (RotationQuaternion_ctor_q F quat2r q)) /\
  (forall q, settable (MappedRotationQuaternion_class F updateQuat quat2r) (MappedRotationQuaternion_ctor F quat2r q)) /\
  ((forall x y, x_get (x_set y (x_get x)) = x_get x) -> forall x, settable (Adapter_class F X x_update x_get x_set) (Adapter_ctor F X x)) /\
  (forall v, settable (GenericVector_class F gupdate) (GenericVector_ctor F v)).
Proof.
  repeat match goal with |- _ /\ _ => split end.
  all: try (intros; intros h s h' s' _ _; split; reflexivity).
  - intros HT p h s h' s' _ _. cbn. rewrite HT. auto.
  - intros C m h s h' s' H H'.
    assert (M : forall h s0 s, dvrun (EuclideanDirection_class F yprmul scale_col2) h s0 = Ok s -> ed_mag s = ed_mag s0).
    { clear. induction h as [|o h IH]; intros s0 s H; cbn in H; [injection H as <-; auto|].
      destruct o; cbn in H; apply IH in H; exact H. }
    cbn. rewrite (M _ _ _ H), (M _ _ _ H'). auto.
  - intros q h s h' s' H _. apply rq_inv in H; [|reflexivity]. cbn. auto.
  - intros q h s h' s' H _. apply (rq_inv h) in H; [|reflexivity]. cbn. auto.
  - intros HX x h s h' s' _ _. cbn. auto.
Qed.
End Cl.

(** ** heaps *)
Section Heap.
Variable F : Type.

Lemma same_obj_refl : forall o : obj F, same_obj o o.
Proof. intros [c s]. exists c, s, s. auto. Qed.
(** save, then any modification by anybody, then restore *)
Lemma restore_other : forall st (h : heap F) i, ~ In i (map fst st) -> restoreDesignVariables st h i = h i.
Proof.
  induction st as [|[j p] st IH]; intros h i H; cbn; auto. cbn in H.
  rewrite IH by tauto. unfold hset. destruct (Nat.eqb_spec i j); [subst; tauto|auto].
Qed.

Lemma restore_cls : forall st (h : heap F) i, o_cls (restoreDesignVariables st h i) = o_cls (h i).
Proof.
  induction st as [|[j p] st IH]; intros h i; cbn; auto. rewrite IH. unfold hset.
  destruct (Nat.eqb_spec i j); subst; reflexivity.
Qed.

(** the object pointed to keeps its class and was modified by any history *)
Definition evolved (o o' : obj F) : Prop :=
  exists c s hst s', o = mkObj c s /\ dvrun c hst s = Ok s' /\ o' = mkObj c s'.
Lemma dvrun_app : forall (c : dvclass F) h1 h2 s s1, dvrun c h1 s = Ok s1 -> dvrun c (h1 ++ h2) s = dvrun c h2 s1.
Proof.
  intros c. induction h1 as [|o h1 IH]; intros h2 s s1 H; cbn in *; [injection H as <-; auto|].
  destruct (dvstep c o s); cbn in *; try discriminate. apply IH; auto.
Qed.

Lemma evolved_kin : forall (P : forall c : dvclass F, cS c -> Prop) o o' c s0 hst s, P c s0 -> dvrun c hst s0 = Ok s -> o = mkObj c s ->
  (exists hst' s', dvrun c hst' s = Ok s' /\ o' = mkObj c s') -> kin F P o o'.
Proof.
  intros P o o' c s0 hst s HP H1 -> (hst' & s' & H2 & ->).
  exists c, s0, hst, s, (hst ++ hst'), s'. repeat split; auto. rewrite (dvrun_app c hst hst' s0 s H1). auto.
Qed.

Lemma kin_set : forall P o o' p, kin F P o o' -> kin F P o (o_set o' p).
Proof.
  intros P o o' p (c & s0 & h1 & s1 & h2 & s2 & HP & H1 & H2 & -> & ->).
  exists c, s0, h1, s1, (h2 ++ [DSet p]), (c_set c s2 p). repeat split; auto.
  rewrite (dvrun_app c h2 [DSet p] s0 s2 H2). reflexivity.
Qed.

Lemma set_same : forall o o', kin F (@settable F) o o' -> same_obj o (o_set o' (o_get o)).
Proof.
  intros o o' (c & s0 & h1 & s1 & h2 & s2 & HP & H1 & H2 & -> & ->).
  destruct (HP h1 s1 h2 s2 H1 H2) as [E1 E2].
  exists c, s1, (c_set c s2 (c_get c s1)). auto.
Qed.

Lemma save_restore : forall dvs (h h' : heap F),
  (forall i, In i dvs -> kin F (@settable F) (h i) (h' i)) ->
  let h2 := restoreDesignVariables (saveDesignVariables dvs h) h' in
  (forall i, In i dvs -> same_obj (h i) (h2 i)) /\ (forall i, ~ In i dvs -> h2 i = h' i).
Proof.
  intros dvs h h' K h2. split.
  - intros i Hi. subst h2.
    assert (G : forall l (g : heap F), (forall j, In j dvs -> kin F (@settable F) (h j) (g j)) -> incl l dvs ->
      (In i l \/ same_obj (h i) (g i)) -> same_obj (h i) (restoreDesignVariables (saveDesignVariables l h) g i)).
    { induction l as [|j l IH]; intros g Hg Hincl H; cbn.
      - destruct H as [[]|H]; auto.
      - assert (Hj : In j dvs) by (apply Hincl; left; auto).
        apply IH.
        + intros k Hk. unfold hset. destruct (Nat.eqb_spec k j); [subst; apply kin_set; auto|auto].
        + intros x Hx; apply Hincl; right; auto.
        + destruct H as [[->|H]|H].
          * right. unfold hset. rewrite Nat.eqb_refl. apply set_same. auto.
          * left; auto.
          * right. unfold hset. destruct (Nat.eqb_spec i j); [subst; apply set_same; auto|auto]. }
    apply G; auto. apply incl_refl.
  - intros i Hi. subst h2. apply restore_other. unfold saveDesignVariables. rewrite map_map. cbn. rewrite map_id. auto.
Qed.

(** ** the functor *)
Variable dims : nat -> nat.

Lemma f_update_other : forall dvs dr (h : heap F) i, ~ In i dvs -> f_update dims dvs dr h i = h i.
Proof.
  induction dvs as [|j dvs IH]; intros dr h i H; cbn; auto. cbn in H. rewrite IH by tauto.
  unfold hset. destruct (Nat.eqb_spec i j); [subst; tauto|auto].
Qed.

Lemma skipn_skipn : forall A (l : list A) a b, skipn a (skipn b l) = skipn (b + a) l.
Proof. intros A l a b. revert l. induction b as [|b IH]; intros [|x l]; cbn; auto. destruct a; auto. Qed.

Lemma f_update_at : forall dvs dr (h : heap F) k i, NoDup dvs -> nth_error dvs k = Some i ->
  f_update dims dvs dr h i = o_update (h i) (firstn (dims i) (skipn (offset dims dvs k) dr)).
Proof.
  induction dvs as [|j dvs IH]; intros dr h k i HN Hk; [destruct k; discriminate|].
  inversion HN as [|? ? Hn HN']; subst. destruct k as [|k]; cbn in Hk.
  - injection Hk as ->. cbn. rewrite f_update_other by auto. unfold hset. rewrite Nat.eqb_refl. reflexivity.
  - cbn [f_update]. rewrite (IH _ _ k i HN' Hk). unfold hset.
    destruct (Nat.eqb_spec i j); [subst; exfalso; apply Hn; eapply nth_error_In; eauto|].
    rewrite skipn_skipn. unfold offset. cbn. reflexivity.
Qed.

Lemma f_revert_ok : forall dvs (h0 h : heap F), NoDup dvs ->
  (forall i, In i dvs -> exists o, o_revert (h i) = Ok o /\ same_obj (h0 i) o) ->
  exists h2, f_revert dvs h = Ok h2 /\ (forall i, In i dvs -> same_obj (h0 i) (h2 i)) /\ (forall i, ~ In i dvs -> h2 i = h i).
Proof.
  induction dvs as [|j dvs IH]; intros h0 h HN H; cbn.
  - exists h. split; auto. split; [intros i []|auto].
  - inversion HN as [|? ? Hn HN']; subst.
    destruct (H j) as (o & Ho & Hs); [left; auto|]. rewrite Ho. cbn.
    destruct (IH h0 (hset h j o) HN') as (h2 & E & S1 & S2).
    + intros i Hi. unfold hset. destruct (Nat.eqb_spec i j); [subst; contradiction|]. apply H. right; auto.
    + exists h2. split; auto. split.
      * intros i [->|Hi]; auto. rewrite S2 by auto. unfold hset. rewrite Nat.eqb_refl. auto.
      * intros i Hi. rewrite S2 by (intros X; apply Hi; right; auto). unfold hset.
        destruct (Nat.eqb_spec i j); [subst; exfalso; apply Hi; left; auto|auto].
Qed.

Lemma functor_ok : forall (E : Type) (err : heap F -> option E) dvs dr h e, NoDup dvs ->
  (forall i, In i dvs -> built F (@restores_update F) (h i)) ->
  err (f_update dims dvs dr h) = Some e ->
  exists h2, functor_call dims err dvs dr h = FReturn e h2 /\
    (forall i, In i dvs -> same_obj (h i) (h2 i)) /\ (forall i, ~ In i dvs -> h2 i = h i).
Proof.
  intros E err dvs dr h e HN HB He. unfold functor_call. rewrite He.
  destruct (f_revert_ok dvs h (f_update dims dvs dr h) HN) as (h2 & R & S1 & S2).
  - intros i Hi. destruct (HB i Hi) as (c & s0 & hst & s & HP & Hr & Ho).
    apply In_nth_error in Hi. destruct Hi as (k & Hk).
    rewrite (f_update_at dvs dr h k i HN Hk), Ho. unfold o_update, o_revert; cbn [o_cls o_st].
    destruct (HP hst s Hr (firstn (dims i) (skipn (offset dims dvs k) dr))) as (s2 & s3 & E1 & E2 & E3 & _).
    rewrite E1. cbn. eexists. split; [reflexivity|]. exists c, s, s2. auto.
  - exists h2. rewrite R. split; auto. split; auto. intros i Hi. rewrite S2 by auto. apply f_update_other; auto.
Qed.

Lemma functor_throw : forall (E : Type) (err : heap F -> option E) dvs dr h,
  err (f_update dims dvs dr h) = None -> functor_call dims err dvs dr h = FThrow (f_update dims dvs dr h).
Proof. intros E err dvs dr h H. unfold functor_call. rewrite H. auto. Qed.
End Heap.
