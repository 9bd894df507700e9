(** * C67: the minimal difference of a design variable *)
From Coq Require Import Arith Lia List ZArith NArith Bool Reals.
From Verif Require Import Lib_Ring Lib_Real Lib_Res MatrixStack_Model DesignVar_Base Jacobian_Model Jacobian_Spec Scalar_Model Scalar_Spec Quat_Model Quat_Spec Quat_Toy
  MinDiff_Model MinDiff_Spec MinDiff_Proofs MinDiff_Exact MinDiff_Proofs2 MinDiff_Proofs3.
Import ListNotations.
Local Open Scope R_scope.

(** C67, for the classes of [plain] (EuclideanPoint, DesignVariableVector, Scalar, GenericScalar, tutorial scalar, HomogeneousPoint, RotationQuaternion).
    Missing in all partial statements: the four classes that map memory of the caller, DesignVariableAdapter, EuclideanDirection; see the end.
    The difference of a design variable and its own parameters is zero. *)
Theorem C67_self_partial : forall X qdom ddom, qlog_ok X qdom ddom -> forall v out, plain (md_kind v) -> md_wf v ->
  exists e, md_difference X v (md_getParameters v) out = Ok e /\ cv_n e = freedom (md_kind v) /\ forall i, (i < freedom (md_kind v))%nat -> cv_at e i = 0.
Proof. exact self_f. Qed.
Print Assumptions C67_self_partial.
(** The difference of the value after an update and the value before it is the update. *)
Theorem C67_update_partial : forall X qdom ddom, qlog_ok X qdom ddom -> forall v d out, plain (md_kind v) -> md_wf v -> (quat_kind (md_kind v) = true -> ddom d) ->
  exists e, md_difference X (md_update X v d) (md_getParameters v) out = Ok e /\ cv_n e = freedom (md_kind v) /\ forall i, (i < freedom (md_kind v))%nat -> cv_at e i = d i.
Proof. exact update_diff_f. Qed.
Print Assumptions C67_update_partial.
(** The difference to parameters that were just set is zero, and so is the difference to the parameters before that once the setting is reverted. *)
Theorem C67_set_partial : forall X qdom ddom, qlog_ok X qdom ddom -> forall v x out, plain (md_kind v) -> md_wf v -> xhat_ok v x ->
  (exists e, md_difference X (md_setParameters v x) x out = Ok e /\ cv_n e = freedom (md_kind v) /\ forall i, (i < freedom (md_kind v))%nat -> cv_at e i = 0) /\
  (exists e, md_difference X (md_revert (md_setParameters v x)) (md_getParameters v) out = Ok e /\ cv_n e = freedom (md_kind v) /\ forall i, (i < freedom (md_kind v))%nat -> cv_at e i = 0).
Proof. exact set_zero_f. Qed.
Print Assumptions C67_set_partial.
(** A zero difference means the same value. *)
Theorem C67_zero_only_partial : forall X qdom ddom, qlog_ok X qdom ddom -> forall v x out e, plain (md_kind v) -> md_wf v -> xhat_ok v x -> diff_dom qdom v x ->
  md_difference X v x out = Ok e -> (forall i, (i < freedom (md_kind v))%nat -> cv_at e i = 0) -> forall i, (i < coordinates (md_kind v))%nat -> md_cur v i = d_at x i 0%nat.
Proof. exact zero_only_f. Qed.
Print Assumptions C67_zero_only_partial.
(** The Jacobian is the derivative of the difference with respect to an update of the design variable. *)
Theorem C67_jacobian_partial : forall X qdom ddom, qlog_ok X qdom ddom -> forall v x out outJ, plain (md_kind v) -> md_wf v -> xhat_ok v x -> diff_dom qdom v x ->
  exists e J, md_differenceAndJacobian X v x out outJ = Ok (e, J) /\ md_difference X v x out = Ok e /\ d_rows J = freedom (md_kind v) /\ d_cols J = freedom (md_kind v) /\
    forall i j, (i < freedom (md_kind v))%nat -> (j < freedom (md_kind v))%nat ->
      rder (fun h => do e <- md_difference X (md_update X v (axis_vec j h)) x out; Ok (cv_at e i)) 0 (d_at J i j).
Proof. exact jac_diff_f. Qed.
Print Assumptions C67_jacobian_partial.
(** So the expression node for the difference puts its own derivative into the Jacobian container. *)
Theorem C67_expression_partial : forall X qdom ddom, qlog_ok X qdom ddom -> forall al d v x, (0 < al)%nat -> plain (md_kind v) -> md_wf v -> xhat_ok v x -> diff_dom qdom v x ->
  wf_dvs [d] -> dv_active d = true -> dv_dim d = freedom (md_kind v) -> (N.of_nat (dv_dim d) < 65536)%N ->
  exists e ops c, mde_evaluate X (dv_dim d) v x = Ok e /\ mde_calls X d v x = Ok ops /\ jc_run _ sp_addJ al (sp_init (dv_dim d)) ops = Ok c /\
    forall i j, (i < dv_dim d)%nat -> (j < dv_dim d)%nat ->
      rder (fun h => do e <- mde_evaluate X (dv_dim d) (md_update X v (axis_vec j h)) x; Ok (cv_at e i)) 0 (jacobian_entry (jc_store c) d i j).
Proof. exact node_right_f. Qed.
Print Assumptions C67_expression_partial.
(** Parameters of the wrong size are refused. *)
Theorem C67_wrong_size_partial : forall X v x out, plain (md_kind v) \/ mapped (md_kind v) -> md_kind v <> KTutorialScalar -> ~ (d_rows x = coordinates (md_kind v) /\ d_cols x = 1%nat) ->
  md_difference X v x out = Throw.
Proof. exact wrong_size_f. Qed.
Print Assumptions C67_wrong_size_partial.
(** The hypotheses hold for the exact formulas (the logarithm 2 acos(w)/sqrt(1-w^2) v of every unit quaternion other than -1, with the limit at 1), a quaternion, an update by one radian. *)
Example C67_ex : qlog_ok exact_log exact_qdom exact_ddom /\ plain (md_kind (toy_v KRotationQuaternion)) /\ md_wf (toy_v KRotationQuaternion) /\ exact_ddom toy_d /\
  xhat_ok (toy_v KRotationQuaternion) toy_x /\ diff_dom exact_qdom (toy_v KRotationQuaternion) toy_x /\ wf_dvs [toy_dv] /\ dv_dim toy_dv = freedom (md_kind (toy_v KRotationQuaternion)).
Proof. split; [exact exact_ok|]. split; [exact I|]. split; [apply toy_wf|]. split; [exact toy_ddom|]. split; [apply toy_xhat|]. split; [apply toy_xhat|]. split; [exact toy_dvs|reflexivity]. Qed.
Example C67_wrong_size_ex : ~ (d_rows toy_x = coordinates (md_kind (toy_v KMappedEuclideanPoint)) /\ d_cols toy_x = 1%nat).
Proof. cbn. intros (H & _). discriminate H. Qed.

(** The classes that map memory of the caller subtract from the value before the last update: whatever the update, the difference to the value before it is zero. *)
Theorem C67_mapped_zero : forall X qdom ddom, qlog_ok X qdom ddom -> forall v d out, mapped (md_kind v) -> md_wf v ->
  exists e, md_difference X (md_update X v d) (md_getParameters v) out = Ok e /\ cv_n e = freedom (md_kind v) /\ forall i, (i < freedom (md_kind v))%nat -> cv_at e i = 0.
Proof. exact mapped_zero_f. Qed.
Print Assumptions C67_mapped_zero.
(** They are right where the current value is the backup, for instance after a revert. *)
Theorem C67_mapped_reverted : forall X qdom ddom, qlog_ok X qdom ddom -> forall v out, mapped (md_kind v) -> md_wf v -> let r := md_revert v in
  exists e, md_difference X r (md_getParameters r) out = Ok e /\ cv_n e = freedom (md_kind v) /\ forall i, (i < freedom (md_kind v))%nat -> cv_at e i = 0.
Proof. exact mapped_reverted_f. Qed.
Print Assumptions C67_mapped_reverted.
Example C67_mapped_ex : mapped (md_kind (toy_v KMappedRotationQuaternion)) /\ md_wf (toy_v KMappedRotationQuaternion).
Proof. split; [exact I|apply toy_wf]. Qed.
Theorem C67_mapped_refuted : ~ (forall X qdom ddom v d out, qlog_ok X qdom ddom -> mapped (md_kind v) -> md_wf v -> ddom d ->
  exists e, md_difference X (md_update X v d) (md_getParameters v) out = Ok e /\ forall i, (i < freedom (md_kind v))%nat -> cv_at e i = d i).
Proof. exact mapped_bug_f. Qed.
Print Assumptions C67_mapped_refuted.
Theorem C67_mapped_jacobian_refuted : ~ (forall X qdom ddom v x out outJ, qlog_ok X qdom ddom -> mapped (md_kind v) -> md_wf v -> xhat_ok v x -> diff_dom qdom v x ->
  exists e J, md_differenceAndJacobian X v x out outJ = Ok (e, J) /\
    forall i j, (i < freedom (md_kind v))%nat -> (j < freedom (md_kind v))%nat -> rder (fun h => do e <- md_difference X (md_update X v (axis_vec j h)) x out; Ok (cv_at e i)) 0 (d_at J i j)).
Proof. exact mapped_jac_bug_f. Qed.
Print Assumptions C67_mapped_jacobian_refuted.
(** DesignVariableAdapter returns without writing the difference. *)
Theorem C67_adapter_refuted : ~ (forall X qdom ddom v out, qlog_ok X qdom ddom -> md_kind v = KAdapter -> forall e, md_difference X v (md_getParameters v) out = Ok e ->
  forall i, (i < cv_n e)%nat -> cv_at e i = 0).
Proof. exact adapter_bug. Qed.
Print Assumptions C67_adapter_refuted.
