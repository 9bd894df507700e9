(** * A concrete history of a rotation design variable *)
From Coq Require Import Arith List Reals Lra.
From Verif Require Import Lib_Ring Lib_Real Lib_Res Geo_Model Geo_Spec Geo_Toy Geo_Proofs2 Quat_Model Quat_Spec Quat_Proofs.
Import ListNotations.
Local Open Scope R_scope.

(* (0, 3/5, 0, 4/5), then two updates, a revert, a new value *)
Definition q35 : vec R := fun i => match i with 1%nat => 3 / 5 | 3%nat => 4 / 5 | _ => 0 end.
Definition q1 : vec R := fun i => match i with 0%nat => 1 | _ => 0 end.
Definition toy_hist : list rotop := [RUpdate (axis_vec 1 2); RUpdate (axis_vec 0 1); RRevert; RSetParameters q1; RUpdate (axis_vec 2 3)].
Lemma quat_hyps : (forall d, unit_quat (exact_aa2q d)) /\ unit_quat q35 /\ Forall given_ok toy_hist.
Proof. split; [exact exact_unit|]. split; [unfold unit_quat, q35; lra|]. repeat constructor; cbn; unfold unit_quat, q1; lra. Qed.
Lemma quat_C_hyps : is_rot (quat2r q35) /\ unit_quat ((fun _ => q35) (quat2r q35)).
Proof. assert (H : unit_quat q35) by (unfold unit_quat, q35; lra). split; [apply quat_rot|]; exact H. Qed.
Lemma expr_hyps : kinematics_ok toy_kin (fun _ => True) /\ state_ok toy_kinds toy_st /\ rxwf toy_kinds toy_r /\ (exists C, rxval toy_kin toy_r toy_st = Ok C) /\ txwf toy_kinds toy_t /\ (exists T, txval toy_kin toy_t toy_st = Ok T).
Proof.
  destruct toy_r_hyps as (H1 & H2 & H3 & H4 & H5 & H6 & _). destruct toy_t_hyps as (_ & _ & H3' & H4' & H5' & H6' & _). assert (0 < 16)%nat as H0 by (repeat constructor).
  destruct (rotation_geo toy_kin (fun _ => True) toy_kinds toy_st 16 H1 H2 H0 toy_r H3 H4 H5 H6) as (C & _ & _ & EC & _).
  destruct (transformation_geo toy_kin (fun _ => True) toy_kinds toy_st 16 H1 H2 H0 toy_t H3' H4' H5' H6') as (T & _ & _ & ET & _).
  split; [exact H1|]. split; [exact H2|]. split; [exact H3|]. split; [exists C; exact EC|]. split; [exact H3'|exists T; exact ET].
Qed.
Lemma rot_values : forall X par_dom kinds s, kinematics_ok X par_dom -> state_ok kinds s ->
  (forall e, rxwf kinds e -> forall C, rxval X e s = Ok C -> is_rot C) /\ (forall e, txwf kinds e -> forall T, txval X e s = Ok T -> rigid T).
Proof. intros X par_dom kinds s KO SO. destruct (values_ok X par_dom kinds s KO SO) as (_ & _ & _ & A & B & _). split; assumption. Qed.
(* a quaternion of length 2 gives a matrix that is not a rotation *)
Definition q2 : vec R := fun i => match i with 3%nat => 2 | _ => 0 end.
Lemma not_unit : ~ is_rot (rC (rot_run exact_aa2q (rot_new q35) [RSetParameters q2])).
Proof. intros (_ & _ & D). unfold det3 in D. cbn in D. lra. Qed.
