(** * Properties C15, C16: design variables and the numerical-difference functor *)
From Coq Require Import Arith List Bool ZArith.
From Verif Require Import Lib_Res DV_Model DV_Spec DV_Proofs.
Import ListNotations.

(** C15 (partial): after any history, update or setParameters followed by one or two reverts gives
    back parameters and value, for every class, arbitrary scalar type and arithmetic.
    Missing: DesignVariableGenericVector (only update, see the refutations), RotationQuaternion built
    from a matrix (needs quat2r (r2quat C) = C), the adapter (needs a lawful adapted object). *)
Theorem C15_revert_restores_partial :
  forall (F : Type) (fzero : F) (fadd : F -> F -> F)
    (T : Type) (ofD : F -> T) (toD : T -> F) (tadd : T -> T -> T) (bmul : list F -> list F)
    (yprmul : list F -> list F -> list F) (scale_col2 : F -> list F -> list F)
    (updateQuat : list F -> list F -> list F) (quat2r r2quat normalise : list F -> list F)
    (gupdate : list F -> list F -> list F)
    (X : Type) (x_update : X -> list F -> X) (x_get : X -> list F) (x_set : X -> list F -> X),
  (forall p, restores (Scalar_class F fzero fadd) (Scalar_ctor F p)) /\
  (forall p, restores (ScalarDesignVariable_class F fzero fadd) (ScalarDesignVariable_ctor F p)) /\
  (forall p, restores (GenericScalar_class F fzero T ofD toD tadd) (GenericScalar_ctor T p)) /\
  (forall p, restores (EuclideanPoint_class F fadd) (EuclideanPoint_ctor F p)) /\
  (forall p, restores (MappedEuclideanPoint_class F fadd) (MappedEuclideanPoint_ctor F p)) /\
  (forall v, restores (DesignVariableVector_class F fadd) (DesignVariableVector_ctor F v)) /\
  (forall n, restores (DesignVariableVector_class F fadd) (DesignVariableVector_ctor_dim F fzero n)) /\
  (forall v, restores (DesignVariableMappedVector_class F fadd) (DesignVariableMappedVector_ctor F v)) /\
  (forall A, restores (MatrixBasic_class F fadd bmul) (MatrixBasic_ctor F A)) /\
  (forall C m, restores (EuclideanDirection_class F yprmul scale_col2) (EuclideanDirection_ctor F C m)) /\
  (forall p, restores (HomogeneousPoint_class F updateQuat) (HomogeneousPoint_ctor F normalise p)) /\
  (forall p, restores (MappedHomogeneousPoint_class F updateQuat) (MappedHomogeneousPoint_ctor F normalise p)) /\
  (forall q, restores (RotationQuaternion_class F updateQuat quat2r) (RotationQuaternion_ctor_q F quat2r q)) /\
  (forall q, restores (MappedRotationQuaternion_class F updateQuat quat2r) (MappedRotationQuaternion_ctor F quat2r q)) /\
  ((forall C, quat2r (r2quat C) = C) -> forall C, restores (RotationQuaternion_class F updateQuat quat2r) (RotationQuaternion_ctor_C F r2quat C)) /\
  ((forall x y, x_get (x_set y (x_get x)) = x_get x) -> forall x, restores (Adapter_class F X x_update x_get x_set) (Adapter_ctor F X x)) /\
  (forall v, restores_update (GenericVector_class F gupdate) (GenericVector_ctor F v)).
Proof. exact all_restore. Qed.
Print Assumptions C15_revert_restores_partial.

(** C15: setParameters(getParameters()) restores a saved state whatever happened in between *)
Theorem C15_parameters_restore_value :
  forall (F : Type) (fzero : F) (fadd : F -> F -> F)
    (T : Type) (ofD : F -> T) (toD : T -> F) (tadd : T -> T -> T) (bmul : list F -> list F)
    (yprmul : list F -> list F -> list F) (scale_col2 : F -> list F -> list F)
    (updateQuat : list F -> list F -> list F) (quat2r normalise : list F -> list F)
    (gupdate : list F -> list F -> list F)
    (X : Type) (x_update : X -> list F -> X) (x_get : X -> list F) (x_set : X -> list F -> X),
  (forall p, settable (Scalar_class F fzero fadd) (Scalar_ctor F p)) /\
  (forall p, settable (ScalarDesignVariable_class F fzero fadd) (ScalarDesignVariable_ctor F p)) /\
  ((forall t, ofD (toD t) = t) -> forall p, settable (GenericScalar_class F fzero T ofD toD tadd) (GenericScalar_ctor T p)) /\
  (forall p, settable (EuclideanPoint_class F fadd) (EuclideanPoint_ctor F p)) /\
  (forall p, settable (MappedEuclideanPoint_class F fadd) (MappedEuclideanPoint_ctor F p)) /\
  (forall v, settable (DesignVariableVector_class F fadd) (DesignVariableVector_ctor F v)) /\
  (forall v, settable (DesignVariableMappedVector_class F fadd) (DesignVariableMappedVector_ctor F v)) /\
  (forall A, settable (MatrixBasic_class F fadd bmul) (MatrixBasic_ctor F A)) /\
  (forall C m, settable (EuclideanDirection_class F yprmul scale_col2) (EuclideanDirection_ctor F C m)) /\
  (forall p, settable (HomogeneousPoint_class F updateQuat) (HomogeneousPoint_ctor F normalise p)) /\
  (forall p, settable (MappedHomogeneousPoint_class F updateQuat) (MappedHomogeneousPoint_ctor F normalise p)) /\
  (forall q, settable (RotationQuaternion_class F updateQuat quat2r) (RotationQuaternion_ctor_q F quat2r q)) /\
  (forall q, settable (MappedRotationQuaternion_class F updateQuat quat2r) (MappedRotationQuaternion_ctor F quat2r q)) /\
  ((forall x y, x_get (x_set y (x_get x)) = x_get x) -> forall x, settable (Adapter_class F X x_update x_get x_set) (Adapter_ctor F X x)) /\
  (forall v, settable (GenericVector_class F gupdate) (GenericVector_ctor F v)).
Proof. exact all_settable. Qed.
Print Assumptions C15_parameters_restore_value.

(** C15: save all, modify each variable by any history, restore all: every saved variable has its
    saved parameters and value, every other one is untouched; also with repeated pointers *)
Theorem C15_save_restore_all :
  forall (F : Type) dvs (h h' : heap F),
  (forall i, In i dvs -> kin F (@settable F) (h i) (h' i)) ->
  let h2 := restoreDesignVariables (saveDesignVariables dvs h) h' in
  (forall i, In i dvs -> same_obj (h i) (h2 i)) /\ (forall i, ~ In i dvs -> h2 i = h' i).
Proof. exact save_restore. Qed.
Print Assumptions C15_save_restore_all.

(** C16 (partial): for pairwise different variables the functor evaluates the error with the k-th
    variable updated by the k-th slice and everything else untouched, returns that error, and leaves
    parameters and values as before.  Missing: repeated variables and throwing error terms (below). *)
Theorem C16_functor_leaves_state_partial :
  forall (F : Type) (dims : nat -> nat) (E : Type) (err : heap F -> option E) dvs dr (h : heap F),
  NoDup dvs -> (forall i, In i dvs -> built F (@restores_update F) (h i)) ->
  exists h1,
    (forall k i, nth_error dvs k = Some i -> h1 i = o_update (h i) (firstn (dims i) (skipn (offset dims dvs k) dr))) /\
    (forall i, ~ In i dvs -> h1 i = h i) /\
    forall e, err h1 = Some e ->
      exists h2, functor_call dims err dvs dr h = FReturn e h2 /\
        (forall i, In i dvs -> same_obj (h i) (h2 i)) /\ (forall i, ~ In i dvs -> h2 i = h i).
Proof.
  exact (fun F dims E err dvs dr h HN HB =>
    ex_intro _ (f_update dims dvs dr h)
      (conj (fun k i Hk => f_update_at F dims dvs dr h k i HN Hk)
      (conj (f_update_other F dims dvs dr h)
            (fun e He => functor_ok F dims E err dvs dr h e HN HB He)))).
Qed.
Print Assumptions C16_functor_leaves_state_partial.

(** ** examples and refutations, with integers as scalars *)
Definition zpoint : dvclass Z := EuclideanPoint_class Z Z.add.
Definition zgen : dvclass Z := GenericVector_class Z (vplus Z Z.add).
Local Open Scope Z_scope.

Example C15_example : exists s s1 s2, dvrun zpoint [DUpdate [1; 2; 3]; DSet [7; 8; 9]; DRevert; DUpdate [1; 1; 1]] (EuclideanPoint_ctor Z [0; 0; 0]) = Ok s /\
  c_get zpoint s = [2; 3; 4] /\ s1 = c_update zpoint s [5; 5; 5] /\ c_get zpoint s1 = [7; 8; 9] /\
  c_revert zpoint s1 = Ok s2 /\ c_get zpoint s2 = [2; 3; 4].
Proof. do 3 eexists. repeat split; reflexivity. Qed.

Lemma zpoint_settable : settable zpoint (EuclideanPoint_ctor Z [0; 0; 0]).
Proof. intros h s h' s' _ _. split; reflexivity. Qed.
Lemma zpoint_restores : restores_update zpoint (EuclideanPoint_ctor Z [0; 0; 0]).
Proof. intros h s _ d. do 2 eexists. repeat split; reflexivity. Qed.

Definition ex_heap0 : heap Z := fun _ => mkObj zpoint (EuclideanPoint_ctor Z [0; 0; 0]).
Definition ex_heap1 : heap Z := hset ex_heap0 1%nat (o_update (ex_heap0 1%nat) [4; 5; 6]).
Example C15_example_save : forall i, In i [0%nat; 1%nat; 1%nat] -> kin Z (@settable Z) (ex_heap0 i) (ex_heap1 i).
Proof.
  intros i Hi. exists zpoint, (EuclideanPoint_ctor Z [0; 0; 0]), [], (EuclideanPoint_ctor Z [0; 0; 0]).
  destruct Hi as [<-|[<-|[<-|[]]]].
  - exists [], (EuclideanPoint_ctor Z [0; 0; 0]). split; [exact zpoint_settable|]. repeat split.
  - exists [DUpdate [4; 5; 6]]. eexists. split; [exact zpoint_settable|]. repeat split.
  - exists [DUpdate [4; 5; 6]]. eexists. split; [exact zpoint_settable|]. repeat split.
Qed.

Example C16_example : NoDup [0%nat; 1%nat] /\ (forall i, In i [0%nat; 1%nat] -> built Z (@restores_update Z) (ex_heap0 i)) /\
  exists h2, functor_call (fun _ => 3%nat) (fun h => Some (o_get (h 0%nat) ++ o_get (h 1%nat))) [0%nat; 1%nat] [1; 2; 3; 4; 5; 6] ex_heap0 =
    FReturn [1; 2; 3; 4; 5; 6] h2 /\ o_get (h2 1%nat) = [0; 0; 0].
Proof.
  split; [repeat constructor; cbn; intuition discriminate|]. split.
  - intros i _. exists zpoint, (EuclideanPoint_ctor Z [0; 0; 0]), [], (EuclideanPoint_ctor Z [0; 0; 0]). split; [exact zpoint_restores|]. split; reflexivity.
  - eexists. split; [vm_compute; reflexivity|]. reflexivity.
Qed.

(** C15: DesignVariableGenericVector::setParameters does not remember the previous value: revert
    after setParameters goes back to the state before the last update instead *)
Theorem C15_generic_vector_set_then_revert_refuted :
  exists v h s p s', dvrun zgen h (GenericVector_ctor Z v) = Ok s /\
    c_revert zgen (c_set zgen s p) = Ok s' /\ c_get zgen s' <> c_get zgen s.
Proof.
  exists [0], [DUpdate [1]]. do 1 eexists. exists [5]. eexists. split; [reflexivity|]. split; [reflexivity|]. discriminate.
Qed.
Print Assumptions C15_generic_vector_set_then_revert_refuted.

(** C15: a freshly constructed DesignVariableGenericVector has no previous value: setParameters and
    revert, or revert alone, reads an uninitialised vector *)
Theorem C15_generic_vector_fresh_revert_refuted :
  forall v p, c_revert zgen (GenericVector_ctor Z v) = UB /\ c_revert zgen (c_set zgen (GenericVector_ctor Z v) p) = UB.
Proof. exact (fun v p => conj eq_refl eq_refl). Qed.
Print Assumptions C15_generic_vector_fresh_revert_refuted.

(** C15: a RotationQuaternion built from a matrix C that the conversion to a quaternion and back
    does not reproduce has a different value after update and revert.  The conversions here project
    on the first entry; real ones lose the non-orthogonal part and the last bits. *)
Theorem C15_rotation_from_matrix_refuted :
  exists quat2r r2quat updateQuat C d s',
    let cls := RotationQuaternion_class Z updateQuat quat2r in
    c_revert cls (c_update cls (RotationQuaternion_ctor_C Z r2quat C) d) = Ok s' /\
    c_obs cls s' <> c_obs cls (RotationQuaternion_ctor_C Z r2quat C).
Proof.
  exists (fun q => q), (fun C => firstn 1 C), (fun q d => q), [1; 2], []. eexists.
  split; [reflexivity|]. discriminate.
Qed.
Print Assumptions C15_rotation_from_matrix_refuted.

(** C16: a design variable listed twice is displaced twice and reverted only to the middle state *)
Theorem C16_repeated_variable_refuted :
  exists dvs dr (h : heap Z) (err : heap Z -> option unit) h2,
    (forall i, built Z (@restores_update Z) (h i)) /\
    functor_call (fun _ => 3%nat) err dvs dr h = FReturn tt h2 /\ o_get (h2 0%nat) <> o_get (h 0%nat).
Proof.
  exists [0%nat; 0%nat], [1; 0; 0; 1; 0; 0], ex_heap0, (fun _ => Some tt). eexists. split; [|split].
  - intros i. exists zpoint, (EuclideanPoint_ctor Z [0; 0; 0]), [], (EuclideanPoint_ctor Z [0; 0; 0]). split; [exact zpoint_restores|]. split; reflexivity.
  - vm_compute. reflexivity.
  - vm_compute. discriminate.
Qed.
Print Assumptions C16_repeated_variable_refuted.

(** C16: if evaluateError throws, the displaced state stays *)
Theorem C16_throwing_error_refuted :
  exists dvs dr (h : heap Z) (err : heap Z -> option unit) h2,
    NoDup dvs /\ (forall i, built Z (@restores_update Z) (h i)) /\
    functor_call (fun _ => 3%nat) err dvs dr h = FThrow h2 /\ o_get (h2 0%nat) <> o_get (h 0%nat).
Proof.
  exists [0%nat], [1; 0; 0], ex_heap0, (fun _ => None). eexists. split; [|split; [|split]].
  - repeat constructor. cbn. auto.
  - intros i. exists zpoint, (EuclideanPoint_ctor Z [0; 0; 0]), [], (EuclideanPoint_ctor Z [0; 0; 0]). split; [exact zpoint_restores|]. split; reflexivity.
  - vm_compute. reflexivity.
  - vm_compute. discriminate.
Qed.
Print Assumptions C16_throwing_error_refuted.
