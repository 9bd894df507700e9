(** * A turntable with an arm on it: concrete kinematic chains *)
From Coq Require Import Arith Lia List ZArith NArith Bool Reals Lra.
From Verif Require Import Lib_Ring Lib_Real Lib_Res MatrixStack_Model DesignVar_Base Jacobian_Model Scalar_Model Geo_Model Geo_Spec Geo_Algebra Geo_Toy Empty_Model Empty_Proofs Chain_Model Chain_Spec Chain_Proofs.
Import ListNotations.
Local Open Scope R_scope.

Definition e1 : vec R := delta 0%nat.
Definition e3 : vec R := delta 2%nat.
Definition z3 : vec R := fun _ => 0.
(* the design variable gS is the time *)
Definition clock (t : R) : state := fun _ _ => t.
(* turns about the third axis with unit speed *)
Definition table : frame := {| fR := HNode (RxAxis 2 (XVar gS)); fp := HNull; fomega := HNode (VxConst 3 e3); fv := HNull; falpha := HNull; fa := HNull |}.
Definition table_m : motion := {| mR := fun t => axis_rot 2 t; mp := fun _ => z3; momega := fun _ => e3; mv := fun _ => z3; malpha := fun _ => z3; ma := fun _ => z3 |}.
(* turns about the first axis and sits at (1, 0, 0) *)
Definition arm : frame := {| fR := HNode (RxAxis 0 (XVar gS)); fp := HNode (VxConst 3 e1); fomega := HNode (VxConst 3 e1); fv := HNull; falpha := HNull; fa := HNull |}.
Definition arm_m : motion := {| mR := fun t => axis_rot 0 t; mp := fun _ => e1; momega := fun _ => e1; mv := fun _ => z3; malpha := fun _ => z3; ma := fun _ => z3 |}.
(* moves outwards along the first axis with unit speed *)
Definition slider : frame := {| fR := HNull; fp := HNode (VxScale (VxConst 3 e1) (XVar gS)); fomega := HNull; fv := HNode (VxConst 3 e1); falpha := HNull; fa := HNull |}.
Definition slider_m : motion := {| mR := fun _ => mid; mp := fun t i => e1 i * t; momega := fun _ => z3; mv := fun _ => e1; malpha := fun _ => z3; ma := fun _ => z3 |}.

Lemma table_follows : follows toy_kin clock table table_m.
Proof. intros t. repeat split. Qed.
Lemma arm_follows : follows toy_kin clock arm arm_m.
Proof. intros t. repeat split. Qed.
Lemma slider_follows : follows toy_kin clock slider slider_m.
Proof. intros t. repeat split. Qed.
Lemma vel_const : forall v : vec R, velocity (fun _ => v) (fun _ => z3).
Proof. intros v t i _. apply der_const. Qed.
Lemma axis_turns : forall a, (a < 3)%nat -> turns (fun t => axis_rot a t) (fun _ => delta a).
Proof.
  intros a Ha. split; [intros; apply rot_axis; auto|]. intros t i j Hi Hj. unfold mmul. rewrite ks3.
  assert (C : derivable_pt_lim (fun u => cos u) t (- sin t)) by apply derivable_pt_lim_cos. assert (D : derivable_pt_lim (fun u => sin u) t (cos t)) by apply derivable_pt_lim_sin.
  idx a; idx i; idx j; cbn; match goal with
  | |- derivable_pt_lim (fun _ => cos _) _ _ => eapply der_eq; [|exact C]; cbn; ring
  | |- derivable_pt_lim (fun _ => sin _) _ _ => eapply der_eq; [|exact D]; cbn; ring
  | |- derivable_pt_lim (fun u => - sin u) _ _ => eapply der_eq; [|apply (der_opp (fun u => sin u)); exact D]; cbn; ring
  | _ => eapply der_eq; [|apply der_const]; cbn; ring end.
Qed.
Lemma table_proper : proper table_m.
Proof. split; [exact (vel_const _)|split; [exact (vel_const _)|split; [exact (axis_turns 2%nat ltac:(lia))|exact (vel_const _)]]]. Qed.
Lemma arm_proper : proper arm_m.
Proof. split; [exact (vel_const _)|split; [exact (vel_const _)|split; [exact (axis_turns 0%nat ltac:(lia))|exact (vel_const _)]]]. Qed.
Lemma slider_proper : proper slider_m.
Proof.
  split; [|split; [exact (vel_const _)|split; [|exact (vel_const _)]]].
  - intros t i Hi. cbn. eapply der_eq; [|apply der_scal, der_id]. ring.
  - split; [intros; apply rot_id|]. intros t i j Hi Hj. eapply der_eq; [|exact (der_const (mid i j) t)]. unfold mmul. rewrite ks3. idx i; cbn; unfold z3; ring.
Qed.
Lemma chain3_ex : Forall2 (follows toy_kin clock) [slider; arm; table] [slider_m; arm_m; table_m] /\ Forall proper [slider_m; arm_m; table_m].
Proof. split; [repeat (apply Forall2_cons || apply Forall2_nil); [apply slider_follows|apply arm_follows|apply table_follows]|repeat (apply Forall_cons || apply Forall_nil); [apply slider_proper|apply arm_proper|apply table_proper]]. Qed.
Lemma chain2_ex : Forall2 (follows toy_kin clock) [arm; table] [arm_m; table_m] /\ Forall proper [arm_m; table_m] /\ forall t i, (i < 3)%nat -> coriolis [arm_m; table_m] t i = 0.
Proof.
  split; [repeat (apply Forall2_cons || apply Forall2_nil); [apply arm_follows|apply table_follows]|]. split; [repeat (apply Forall_cons || apply Forall_nil); [apply arm_proper|apply table_proper]|].
  intros t i Hi. cbn [coriolis arm_m table_m mv]. unfold mvmul. rewrite !ks3. unfold z3. idx i; cbn; ring.
Qed.
Lemma chain_refuted : exists X s c ms v a, Forall2 (follows X s) c ms /\ Forall proper ms /\ value X s (getV c) v /\ value X s (getA c) a /\ ~ velocity v a.
Proof.
  assert (F : Forall2 (follows toy_kin clock) [slider; table] [slider_m; table_m]) by (repeat (apply Forall2_cons || apply Forall2_nil); [apply slider_follows|apply table_follows]).
  assert (P : Forall proper [slider_m; table_m]) by (repeat (apply Forall_cons || apply Forall_nil); [apply slider_proper|apply table_proper]).
  destruct (vals toy_kin clock _ _ F) as (_ & _ & _ & HV & _ & HA). exists toy_kin, clock, [slider; table], [slider_m; table_m], (cv [slider_m; table_m]), (ca [slider_m; table_m]). split; [auto|split; [auto|split; [auto|split; [auto|]]]].
  intros N. pose proof (cv_vel _ P 0 1%nat ltac:(lia)) as V. specialize (N 0 1%nat ltac:(lia)). pose proof (uniqueness_limite _ _ _ _ N V) as E. cbn beta in E.
  assert (coriolis [slider_m; table_m] 0 1%nat = 1); [|lra]. cbn [coriolis slider_m table_m mv poseomega poseR momega mR]. unfold mvmul, mmul. rewrite !ks3. unfold z3. cbn. rewrite ?cos_0, ?sin_0. ring.
Qed.
