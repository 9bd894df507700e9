(** * C70 and C71: a rotation made of a four-vector expression; the Jacobians of a camera *)
From Coq Require Import Arith Lia List ZArith NArith Bool Reals.
From Verif Require Import Lib_Ring Lib_Real Lib_Res MatrixStack_Model DesignVar_Base Jacobian_Model Jacobian_Spec Scalar_Model Scalar_Spec Geo_Model Geo_Spec Geo_Toy Quat_Model Quat_Spec Adapt_Model Adapt_Spec Adapt_Proofs Adapt_Proofs2 Adapt_Toy.
Import ListNotations.
Local Open Scope R_scope.

(** As long as the four-vector stays a unit quaternion, the adapter is a rotation and with phi the column of the container its matrix C changes by - phi^x C.
    Partial: of four-vectors that leave the sphere (next theorem) nothing is claimed. *)
Theorem C70_adapter_partial : forall X par_dom kinds s al, kinematics_ok X par_dom -> state_ok kinds s -> (0 < al)%nat ->
  forall e, vxwf kinds e -> vxsize e = 4%nat -> vxdom X par_dom e s -> stack_room 3 al (vxwidth e) (S (vxdepth e)) -> wf_dvs (vxdvs e) ->
  exists C ops c, adapt_val X e s = Ok C /\ adapt_jac X e s = Ok ops /\ jc_run _ sp_addJ al (sp_init 3) ops = Ok c /\
    forall d j, In d (vxdvs e) -> dv_active d = true -> (j < dv_dim d)%nat -> stays_unit X kinds e s d j ->
      is_rot C /\ forall p q, (p < 3)%nat -> (q < 3)%nat ->
      gpartial X kinds (fun s => do C <- adapt_val X e s; Ok (C p q)) s d j (- mmul 3 (crossm (fun i => jacobian_entry (jc_store c) d i j)) C p q).
Proof. exact adapt_main. Qed.
Print Assumptions C70_adapter_partial.
Example C70_adapter_ex : kinematics_ok toy_kin (fun _ => True) /\ state_ok toy_kinds toy_st /\ vxwf toy_kinds qx /\ vxsize qx = 4%nat /\ vxdom toy_kin (fun _ => True) qx toy_st /\
  stack_room 3 16 (vxwidth qx) (S (vxdepth qx)) /\ wf_dvs (vxdvs qx) /\ (In aA (vxdvs qx) /\ In aB (vxdvs qx)) /\ forall d j, stays_unit toy_kin toy_kinds qx toy_st d j.
Proof. exact qx_hyps. Qed.

(** A plain design variable of size four, even one that holds a unit quaternion: there is no phi at all, the Jacobian cannot be right. *)
Theorem C70_free_vector_refuted : kinematics_ok toy_kin (fun _ => True) /\ state_ok toy_kinds qst /\ vxwf toy_kinds (VxVar aQ) /\ vxsize (VxVar aQ) = 4%nat /\ vxdom toy_kin (fun _ => True) (VxVar aQ) qst /\
  stack_room 3 16 (vxwidth (VxVar aQ)) (S (vxdepth (VxVar aQ))) /\ wf_dvs (vxdvs (VxVar aQ)) /\ In aQ (vxdvs (VxVar aQ)) /\ dv_active aQ = true /\ (exists q, vxval toy_kin (VxVar aQ) qst = Ok q /\ unit_quat q) /\
  exists C, adapt_val toy_kin (VxVar aQ) qst = Ok C /\ forall phi, ~ gpartial toy_kin toy_kinds (fun s => do C <- adapt_val toy_kin (VxVar aQ) s; Ok (C 0%nat 0%nat)) qst aQ 3 (- mmul 3 (crossm phi) C 0%nat 0%nat).
Proof. exact free_refuted. Qed.
Print Assumptions C70_free_vector_refuted.

(** With a chain rule matrix A: the container holds the derivatives of A (y - keypoint) with respect to all active parameters. *)
Theorem C71_chain : forall m v ph y s al, camera_ok m v ph s -> cam_wf v -> (0 < al)%nat -> wf_dvs (cam_dvs v) -> forall r A, (N.of_nat r < 65536)%N ->
  exists c, jc_run _ sp_addJ al (sp_init r) (cam_jac_chain m v r A ph s) = Ok c /\
    forall d i j, In d (cam_dvs v) -> dv_active d = true -> (i < r)%nat -> (j < dv_dim d)%nat ->
      derivable_pt_lim (fun h => mvmul (cam_k m) A (residual m v ph y (moved s d j h)) i) 0 (jacobian_entry (jc_store c) d i j).
Proof. exact cam_chain_main. Qed.
Print Assumptions C71_chain.
(** Without: the derivatives of y - keypoint with respect to projection and distortion. Partial: the shutter is left out. *)
Theorem C71_plain_partial : forall m v ph y s al, camera_ok m v ph s -> cam_wf v -> (0 < al)%nat -> wf_dvs (cam_dvs v) -> (N.of_nat (cam_k m) < 65536)%N ->
  exists c, jc_run _ sp_addJ al (sp_init (cam_k m)) (cam_jac m v ph s) = Ok c /\
    (forall d i j, In d (cam_dvs v) -> d <> c_s v -> dv_active d = true -> (i < cam_k m)%nat -> (j < dv_dim d)%nat ->
      derivable_pt_lim (fun h => residual m v ph y (moved s d j h) i) 0 (jacobian_entry (jc_store c) d i j)) /\
    (forall i j, (i < cam_k m)%nat -> (j < dv_dim (c_s v))%nat -> dv_active (c_s v) = true -> jacobian_entry (jc_store c) (c_s v) i j = 0).
Proof. exact cam_plain_main. Qed.
Print Assumptions C71_plain_partial.
Example C71_camera_ex : camera_ok toy_cam toy_cdv toy_ph toy_cst /\ cam_wf toy_cdv /\ wf_dvs (cam_dvs toy_cdv) /\ (forall d, In d (cam_dvs toy_cdv) -> dv_active d = true /\ dv_dim d = 1%nat) /\ (0 < 16)%nat /\ (N.of_nat 1 < 65536)%N /\ (N.of_nat (cam_k toy_cam) < 65536)%N.
Proof. exact toy_cam_hyps. Qed.
(** The overload without the chain rule forgets an active shutter. *)
Theorem C71_shutter_refuted : forall y c, jc_run _ sp_addJ 16 (sp_init (cam_k toy_cam)) (cam_jac toy_cam toy_cdv toy_ph toy_cst) = Ok c ->
  ~ derivable_pt_lim (fun h => residual toy_cam toy_cdv toy_ph y (moved toy_cst (c_s toy_cdv) 0 h) 0%nat) 0 (jacobian_entry (jc_store c) (c_s toy_cdv) 0 0).
Proof. exact shutter_refuted. Qed.
Print Assumptions C71_shutter_refuted.
