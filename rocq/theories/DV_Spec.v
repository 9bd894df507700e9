(** * Specification vocabulary for design variables *)
From Coq Require Import List Arith Bool.
From Verif Require Import Lib_Res DV_Model.
Import ListNotations.

(** [s1] was reached from [s] by one modification: reverting once or twice gives back the parameters
    and the value of [s] *)
Definition undone {F} (c : dvclass F) (s s1 : cS c) : Prop :=
  exists s2 s3, c_revert c s1 = Ok s2 /\ c_get c s2 = c_get c s /\ c_obs c s2 = c_obs c s /\
    c_revert c s2 = Ok s3 /\ c_get c s3 = c_get c s /\ c_obs c s3 = c_obs c s.

Definition restores {F} (c : dvclass F) (s0 : cS c) : Prop :=
  forall h s, dvrun c h s0 = Ok s ->
    (forall d, undone c s (c_update c s d)) /\ (forall p, undone c s (c_set c s p)).
Definition restores_update {F} (c : dvclass F) (s0 : cS c) : Prop :=
  forall h s, dvrun c h s0 = Ok s -> forall d, undone c s (c_update c s d).

(** saving and restoring the parameters *)
Definition settable {F} (c : dvclass F) (s0 : cS c) : Prop :=
  forall h s h' s', dvrun c h s0 = Ok s -> dvrun c h' s0 = Ok s' ->
    c_get c (c_set c s' (c_get c s)) = c_get c s /\ c_obs c (c_set c s' (c_get c s)) = c_obs c s.

(** same class, same parameters, same value *)
Definition same_obj {F} (o o' : obj F) : Prop :=
  exists c s s', o = mkObj c s /\ o' = mkObj c s' /\ c_get c s' = c_get c s /\ c_obs c s' = c_obs c s.

Section Built.
Variable F : Type.
(** the object was built by a constructor state satisfying [P] and any history *)
Definition built (P : forall c : dvclass F, cS c -> Prop) (o : obj F) : Prop :=
  exists c s0 hst s, P c s0 /\ dvrun c hst s0 = Ok s /\ o = mkObj c s.

(** two objects built from one constructor state by two histories *)
Definition kin (P : forall c : dvclass F, cS c -> Prop) (o o' : obj F) : Prop :=
  exists c s0 h1 s1 h2 s2, P c s0 /\ dvrun c h1 s0 = Ok s1 /\ dvrun c h2 s0 = Ok s2 /\ o = mkObj c s1 /\ o' = mkObj c s2.

End Built.

(** start of the slice of the k-th design variable in the displacement vector *)
Definition offset (dims : nat -> nat) (dvs : list nat) (k : nat) : nat := fold_right plus 0 (map dims (firstn k dvs)).

