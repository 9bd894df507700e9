(** * C52: geometric expressions *)
From Coq Require Import Arith List ZArith NArith Bool Reals.
From Verif Require Import Lib_Ring Lib_Real Lib_Res MatrixStack_Model DesignVar_Base Jacobian_Model Jacobian_Spec Scalar_Model Scalar_Spec Geo_Model Geo_Spec Geo_Proofs2 Geo_Toy.
Import ListNotations.
Local Open Scope R_scope.

(** C52. For every expression tree of scalar, vector, Euclidean, homogeneous, rotation and transformation nodes and every state in its domain: evaluation
    succeeds, evaluateJacobians fills a container, and the container holds the first-order change of the value under h times the unit update of component j
    of each active design variable.
    Missing: acosSquared where it uses a series and power 0 at 0, see C51; Jacobians taken without evaluating the expression first, see C53. *)
Theorem C52_scalar_partial : forall X par_dom kinds s al, kinematics_ok X par_dom -> state_ok kinds s -> (0 < al)%nat ->
  forall e, sxwf kinds e -> sxdom X par_dom e s -> stack_room 1 al (sxwidth e) (sxdepth e) -> wf_dvs (sxdvs e) ->
  exists v ops c, sxval X e s = Ok v /\ sxjac X e s = Ok ops /\ jc_run _ sp_addJ al (sp_init 1) ops = Ok c /\
    forall d j, In d (sxdvs e) -> dv_active d = true -> (j < dv_dim d)%nat -> gpartial X kinds (sxval X e) s d j (jacobian_entry (jc_store c) d 0 j).
Proof. exact scalar_geo. Qed.
Print Assumptions C52_scalar_partial.
Example C52_scalar_ex : kinematics_ok toy_kin (fun _ => True) /\ state_ok toy_kinds toy_st /\ sxwf toy_kinds toy_s /\ sxdom toy_kin (fun _ => True) toy_s toy_st /\ stack_room 1 16 (sxwidth toy_s) (sxdepth toy_s) /\
  wf_dvs (sxdvs toy_s) /\ In gM (sxdvs toy_s).
Proof. exact toy_s_hyps. Qed.

(** Vectors and Euclidean points: entry (i, j) is the change of component i. *)
Theorem C52_vector_partial : forall X par_dom kinds s al, kinematics_ok X par_dom -> state_ok kinds s -> (0 < al)%nat ->
  forall e, vxwf kinds e -> vxdom X par_dom e s -> stack_room (vxsize e) al (vxwidth e) (vxdepth e) -> wf_dvs (vxdvs e) ->
  exists v ops c, vxval X e s = Ok v /\ vxjac X e s = Ok ops /\ jc_run _ sp_addJ al (sp_init (vxsize e)) ops = Ok c /\
    forall d i j, In d (vxdvs e) -> dv_active d = true -> (i < vxsize e)%nat -> (j < dv_dim d)%nat -> gpartial X kinds (fun s => do x <- vxval X e s; Ok (x i)) s d j (jacobian_entry (jc_store c) d i j).
Proof. exact vector_geo. Qed.
Print Assumptions C52_vector_partial.
Example C52_vector_ex : kinematics_ok toy_kin (fun _ => True) /\ state_ok toy_kinds toy_st /\ vxwf toy_kinds toy_v /\ vxdom toy_kin (fun _ => True) toy_v toy_st /\
  stack_room (vxsize toy_v) 16 (vxwidth toy_v) (vxdepth toy_v) /\ wf_dvs (vxdvs toy_v) /\ In gD (vxdvs toy_v).
Proof. exact toy_v_hyps. Qed.

(** Rotations: with phi the column of the container, the matrix C changes by - phi^x C. *)
Theorem C52_rotation_partial : forall X par_dom kinds s al, kinematics_ok X par_dom -> state_ok kinds s -> (0 < al)%nat ->
  forall e, rxwf kinds e -> rxdom X par_dom e s -> stack_room 3 al (rxwidth e) (rxdepth e) -> wf_dvs (rxdvs e) ->
  exists C ops c, rxval X e s = Ok C /\ rxjac X e s = Ok ops /\ jc_run _ sp_addJ al (sp_init 3) ops = Ok c /\
    forall d p q j, In d (rxdvs e) -> dv_active d = true -> (p < 3)%nat -> (q < 3)%nat -> (j < dv_dim d)%nat ->
      gpartial X kinds (fun s => do C <- rxval X e s; Ok (C p q)) s d j (- mmul 3 (crossm (fun i => jacobian_entry (jc_store c) d i j)) C p q).
Proof. exact rotation_geo. Qed.
Print Assumptions C52_rotation_partial.
Example C52_rotation_ex : kinematics_ok toy_kin (fun _ => True) /\ state_ok toy_kinds toy_st /\ rxwf toy_kinds toy_r /\ rxdom toy_kin (fun _ => True) toy_r toy_st /\ stack_room 3 16 (rxwidth toy_r) (rxdepth toy_r) /\
  wf_dvs (rxdvs toy_r) /\ In gS (rxdvs toy_r).
Proof. exact toy_r_hyps. Qed.

(** Transformations: with (rho, phi) the column of the container, the rotation changes by - phi^x C and the translation t by rho + t^x phi. *)
Theorem C52_transformation_partial : forall X par_dom kinds s al, kinematics_ok X par_dom -> state_ok kinds s -> (0 < al)%nat ->
  forall e, txwf kinds e -> txdom X par_dom e s -> stack_room 6 al (txwidth e) (txdepth e) -> wf_dvs (txdvs e) ->
  exists T ops c, txval X e s = Ok T /\ txjac X e s = Ok ops /\ jc_run _ sp_addJ al (sp_init 6) ops = Ok c /\
    forall d p j, In d (txdvs e) -> dv_active d = true -> (p < 3)%nat -> (j < dv_dim d)%nat ->
      (forall q, (q < 3)%nat -> gpartial X kinds (fun s => do T <- txval X e s; Ok (T p q)) s d j (- mmul 3 (crossm (fun i => jacobian_entry (jc_store c) d (3 + i) j)) T p q)) /\
      gpartial X kinds (fun s => do T <- txval X e s; Ok (T p 3%nat)) s d j (jacobian_entry (jc_store c) d p j + mvmul 3 (crossm (fun i => T i 3%nat)) (fun i => jacobian_entry (jc_store c) d (3 + i) j) p).
Proof. exact transformation_geo. Qed.
Print Assumptions C52_transformation_partial.
Example C52_transformation_ex : kinematics_ok toy_kin (fun _ => True) /\ state_ok toy_kinds toy_st /\ txwf toy_kinds toy_t /\ txdom toy_kin (fun _ => True) toy_t toy_st /\ stack_room 6 16 (txwidth toy_t) (txdepth toy_t) /\
  wf_dvs (txdvs toy_t) /\ In gR (txdvs toy_t).
Proof. exact toy_t_hyps. Qed.

(** Homogeneous points: entry (i, j) is the change of component i. *)
Theorem C52_homogeneous_partial : forall X par_dom kinds s al, kinematics_ok X par_dom -> state_ok kinds s -> (0 < al)%nat ->
  forall e, hxwf kinds e -> hxdom X par_dom e s -> stack_room 4 al (hxwidth e) (hxdepth e) -> wf_dvs (hxdvs e) ->
  exists v ops c, hxval X e s = Ok v /\ hxjac X e s = Ok ops /\ jc_run _ sp_addJ al (sp_init 4) ops = Ok c /\
    forall d i j, In d (hxdvs e) -> dv_active d = true -> (i < 4)%nat -> (j < dv_dim d)%nat -> gpartial X kinds (fun s => do x <- hxval X e s; Ok (x i)) s d j (jacobian_entry (jc_store c) d i j).
Proof. exact homogeneous_geo. Qed.
Print Assumptions C52_homogeneous_partial.
Example C52_homogeneous_ex : kinematics_ok toy_kin (fun _ => True) /\ state_ok toy_kinds toy_st /\ hxwf toy_kinds toy_h /\ hxdom toy_kin (fun _ => True) toy_h toy_st /\ stack_room 4 16 (hxwidth toy_h) (hxdepth toy_h) /\
  wf_dvs (hxdvs toy_h) /\ In gH (hxdvs toy_h).
Proof. exact toy_h_hyps. Qed.
