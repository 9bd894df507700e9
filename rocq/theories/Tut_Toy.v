(** * The tutorial: concrete cases (examples only) *)
From Coq Require Import Arith Lia List ZArith Bool Reals Lra.
From Verif Require Import Lib_Ring Lib_Real Lib_Res MatrixStack_Model DesignVar_Base Jacobian_Model Jacobian_Spec Scalar_Model Terms_Model Terms_Spec Tut_Model Tut_Spec Tut_Proofs Tut_Proofs2.
Import ListNotations.
Local Open Scope R_scope.

Definition nzT : noise := mkNoise (fun k => / (1 + INR k)) (fun _ => 0) (fun _ => 0) (1 / 2).
Lemma nzT_ok : forward nzT /\ noise_free nzT.
Proof. split; [intros k; cbn; apply Rlt_le, Rinv_0_lt_compat; pose proof (pos_INR k); lra|intros k; cbn; auto]. Qed.
Definition nzW : noise := mkNoise (fun k => / (1 + INR k)) (fun k => INR k) (fun k => - INR k) (sum_to (odometry (mkNoise (fun k => / (1 + INR k)) (fun k => INR k) (fun _ => 0) 0)) 1 - true_w).
Lemma nzW_ok : forward nzW /\ n_wall nzW = sum_to (odometry nzW) 1 - true_w.
Proof. split; [intros k; cbn; apply Rlt_le, Rinv_0_lt_compat; pose proof (pos_INR k); lra|reflexivity]. Qed.
Lemma odo_truth : forall k, sum_to (odometry nzT) k = truth nzT k.
Proof. intros k. unfold truth. induction k; cbn [sum_to]; [auto|]. rewrite IHk. unfold odometry. cbn [n_odometry nzT]. lra. Qed.
Lemma toy_problem : exists p, main 2 3 nzT = Ok (Optimise p) /\ tutorial_problem nzT 3 p /\ off_wall 3 (p_start p) /\ length (p_dvs p) = 4%nat /\ length (p_terms p) = 5%nat.
Proof.
  destruct (main_builds nzT 3 ltac:(lia) (proj1 nzT_ok)) as (p & E & H). change (Z.to_nat 3) with 3%nat in H. exists p. split; [exact E|]. split; [exact H|].
  destruct (well_formed nzT 3 p ltac:(lia) H) as (_ & _ & L & T & _). split; [|auto].
  destruct H as (_ & _ & W & X). intros k Hk. rewrite W, X by lia. cbn [n_wall nzT]. rewrite odo_truth. pose proof (sum_nonneg (n_uniform nzT) k (proj1 nzT_ok)) as P. unfold truth, true_w. lra.
Qed.
Lemma one_step_free : forall nz, forward nz -> exists p, main 2 1 nz = Ok (Optimise p) /\ In wall (p_dvs p) /\ forall s s', xval (position 0) s = xval (position 0) s' -> total_cost (p_terms p) s = total_cost (p_terms p) s'.
Proof.
  intros nz F. destruct (main_builds nz 1 ltac:(lia) F) as (p & E & H). change (Z.to_nat 1) with 1%nat in H. exists p. split; [exact E|]. split; [apply (in_dvs nz 1 p wall H); now left|]. intros s s'. exact (one_step nz p s s' H).
Qed.
Lemma start_on_wall : exists nz p, forward nz /\ main 2 3 nz = Ok (Optimise p) /\ total_cost (p_terms p) (p_start p) = UB.
Proof.
  exists nzW. destruct (main_builds nzW 3 ltac:(lia) (proj1 nzW_ok)) as (p & E & H). change (Z.to_nat 3) with 3%nat in H. exists p. split; [apply nzW_ok|]. split; [exact E|].
  exact (guess_on_wall nzW 3 p H ltac:(lia) (proj2 nzW_ok)).
Qed.
