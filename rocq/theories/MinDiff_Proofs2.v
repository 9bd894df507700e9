(** * The classes that map memory, the sizes, a concrete case (proofs only) *)
From Coq Require Import Arith Lia List ZArith NArith Bool Reals Lra.
From Verif Require Import Lib_Ring Lib_Real Lib_Res MatrixStack_Model DesignVar_Base Jacobian_Model Jacobian_Spec Scalar_Model Scalar_Spec Scalar_Calc Scalar_Proofs2 Quat_Model Quat_Spec Quat_Proofs Quat_Toy
  MinDiff_Model MinDiff_Spec MinDiff_Proofs MinDiff_Exact.
Import ListNotations.
Local Open Scope R_scope.

(* what the mapped classes compute *)
Lemma mapped_value : forall X v x out, mapped (md_kind v) -> xhat_ok v x ->
  md_difference X v x out = Ok (if quat_kind (md_kind v) then quat_diff X (md_prev v) x else vec_diff (md_size (md_kind v)) (md_prev v) x).
Proof.
  intros X v x out P (E1 & E2 & _). unfold md_difference. destruct (md_kind v) eqn:K; cbn [mapped] in P; try (exfalso; exact P); cbn [quat_kind md_size coordinates] in *; rewrite check_ok by assumption; reflexivity.
Qed.
Lemma mapped_zero : forall X qdom ddom, qlog_ok X qdom ddom -> forall v d out, mapped (md_kind v) -> md_wf v ->
  exists e, md_difference X (md_update X v d) (md_getParameters v) out = Ok e /\ cv_n e = md_dim (md_kind v) /\ forall i, (i < md_dim (md_kind v))%nat -> cv_at e i = 0.
Proof.
  intros X qdom ddom H v d out P W. rewrite mapped_value; [|exact P|exact (getP_ok v W)]. eexists. split; [reflexivity|]. cbn [md_update md_kind md_prev]. unfold md_dim. destruct (quat_kind (md_kind v)) eqn:Q.
  - split; [reflexivity|]. intros i Hi. cbn [quat_diff cv_at]. destruct (W Q) as (U & _). destruct H as (_ & _ & _ & HE & H1 & _). rewrite <- (H1 i Hi). apply HE; auto. intros k Hk. apply q_inv; auto.
  - split; [reflexivity|]. intros i Hi. cbn. ring.
Qed.
Lemma mapped_reverted : forall X qdom ddom, qlog_ok X qdom ddom -> forall v out, mapped (md_kind v) -> md_wf v -> let r := md_revert v in
  exists e, md_difference X r (md_getParameters r) out = Ok e /\ cv_n e = md_dim (md_kind v) /\ forall i, (i < md_dim (md_kind v))%nat -> cv_at e i = 0.
Proof.
  intros X qdom ddom H v out P W r. assert (Wr : md_wf r). { intros Q. destruct (W Q) as (_ & U). split; exact U. }
  rewrite mapped_value; [|exact P|exact (getP_ok r Wr)]. eexists. split; [reflexivity|]. cbn [md_revert md_kind md_prev r]. unfold md_dim. destruct (quat_kind (md_kind v)) eqn:Q.
  - split; [reflexivity|]. intros i Hi. cbn [quat_diff cv_at]. destruct (W Q) as (_ & U). destruct H as (_ & _ & _ & HE & H1 & _). rewrite <- (H1 i Hi). apply HE; auto. intros k Hk. apply q_inv; auto.
  - split; [reflexivity|]. intros i Hi. cbn. ring.
Qed.
Lemma wrong_size : forall X v x out, plain (md_kind v) \/ mapped (md_kind v) -> md_kind v <> KTutorialScalar -> ~ (d_rows x = md_size (md_kind v) /\ d_cols x = 1%nat) -> md_difference X v x out = Throw.
Proof.
  intros X v x out P NT NS. assert (C : size_check (md_size (md_kind v)) x = Throw).
  { unfold size_check. destruct (d_rows x =? md_size (md_kind v))%nat eqn:A; auto. destruct (d_cols x =? 1)%nat eqn:B; auto. apply Nat.eqb_eq in A, B. exfalso. apply NS. auto. }
  unfold md_difference. destruct (md_kind v) eqn:K; cbn [plain mapped] in P; try (exfalso; destruct P; assumption); cbn [md_size] in *; try rewrite C; try reflexivity. exfalso. apply NT. reflexivity.
Qed.
(* a scalar, a point, and a quaternion *)
Definition toy_v (k : mkind) : mdv := mkMd k q35 q1.
Lemma toy_wf : forall k, md_wf (toy_v k).
Proof. intros k _. cbn. split; unfold unit_quat, q35, q1; lra. Qed.
Definition toy_d : vec R := axis_vec 1 1.
Lemma toy_ddom : exact_ddom toy_d.
Proof. unfold exact_ddom, toy_d, axis_vec. cbn. replace (0 * 0 + 1 * 1 + 0 * 0) with 1 by ring. rewrite sqrt_1. pose proof PI2_1. pose proof PI_RGT_0. unfold PI2 in *. lra. Qed.
Definition toy_x : @dmat R := mkD 4 1 (fun i _ => if (i =? 3)%nat then 1 else 0).
Lemma toy_xhat : xhat_ok (toy_v KRotationQuaternion) toy_x /\ diff_dom exact_qdom (toy_v KRotationQuaternion) toy_x.
Proof.
  split.
  - split; [reflexivity|]. split; [reflexivity|]. intros _. unfold unit_quat. cbn. ring.
  - intros _. split; [apply qplus_unit; [unfold unit_quat, toy_v; cbn; unfold q35; lra|apply inv_unit; unfold unit_quat; cbn; ring]|]. cbn. unfold q35, quatInv. cbn. lra.
Qed.
Definition toy_dv : dvr := mkDv 0 true 0%Z 0%Z 3 1.
Lemma toy_dvs : wf_dvs [toy_dv].
Proof.
  split; [intros d d' [<-|[]] [<-|[]]; auto|]. split; [intros d [<-|[]] _; cbn; lia|]. intros d d' [<-|[]] [<-|[]]; auto.
Qed.
Lemma mapped_bug : ~ (forall X qdom ddom v d out, qlog_ok X qdom ddom -> mapped (md_kind v) -> md_wf v -> ddom d ->
  exists e, md_difference X (md_update X v d) (md_getParameters v) out = Ok e /\ forall i, (i < md_dim (md_kind v))%nat -> cv_at e i = d i).
Proof.
  intros F. destruct (F exact_log exact_qdom exact_ddom (toy_v KMappedRotationQuaternion) toy_d (mkCol 0 (fun _ => 0)) exact_ok I (toy_wf _) toy_ddom) as (e & E & Z).
  destruct (mapped_zero exact_log exact_qdom exact_ddom exact_ok (toy_v KMappedRotationQuaternion) toy_d (mkCol 0 (fun _ => 0)) I (toy_wf _)) as (e' & E' & _ & Z'). rewrite E in E'. injection E' as <-.
  specialize (Z 1%nat ltac:(cbn; lia)). specialize (Z' 1%nat ltac:(cbn; lia)). rewrite Z in Z'. cbn in Z'. lra.
Qed.
Lemma mapped_jac_bug : ~ (forall X qdom ddom v x out outJ, qlog_ok X qdom ddom -> mapped (md_kind v) -> md_wf v -> xhat_ok v x -> diff_dom qdom v x ->
  exists e J, md_differenceAndJacobian X v x out outJ = Ok (e, J) /\
    forall i j, (i < md_dim (md_kind v))%nat -> (j < md_dim (md_kind v))%nat -> rder (fun h => do e <- md_difference X (md_update X v (axis_vec j h)) x out; Ok (cv_at e i)) 0 (d_at J i j)).
Proof.
  intros F. destruct (F exact_log exact_qdom exact_ddom (toy_v (KMappedVector 1)) (mkD 1 1 (fun _ _ => 0)) (mkCol 0 (fun _ => 0)) (mkD 0 0 (fun _ _ => 0)) exact_ok I (toy_wf _)) as (e & J & E & D).
  - split; [reflexivity|]. split; [reflexivity|]. intros Q; discriminate Q.
  - intros Q; discriminate Q.
  - injection E as <- <-. specialize (D 0%nat 0%nat ltac:(cbn; lia) ltac:(cbn; lia)).
    assert (D0 : rder (fun h => do e <- md_difference exact_log (md_update exact_log (toy_v (KMappedVector 1)) (axis_vec 0 h)) (mkD 1 1 (fun _ _ => 0)) (mkCol 0 (fun _ => 0)); Ok (cv_at e 0%nat)) 0 0).
    { apply (rder_ext (fun _ => Ok (q35 0%nat - 0))); [intros h; reflexivity|]. apply rder_total. apply der_const. }
    pose proof (rder_unique _ _ _ _ D D0) as U. cbn in U. unfold mid, delta in U. cbn in U. lra.
Qed.
Lemma adapter_bug : ~ (forall X qdom ddom v out, qlog_ok X qdom ddom -> md_kind v = KAdapter -> forall e, md_difference X v (md_getParameters v) out = Ok e -> forall i, (i < cv_n e)%nat -> cv_at e i = 0).
Proof.
  intros F. specialize (F exact_log exact_qdom exact_ddom (toy_v KAdapter) (mkCol 1 (fun _ => 1)) exact_ok eq_refl _ eq_refl 0%nat ltac:(cbn; lia)). cbn in F. lra.
Qed.
