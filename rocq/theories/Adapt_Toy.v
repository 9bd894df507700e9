(** * A quaternion of two angles and a small camera, used as examples next to the theorems *)
From Coq Require Import Arith Lia List ZArith NArith Bool Reals Lra FunctionalExtensionality.
From Verif Require Import Lib_Ring Lib_Real Lib_Res MatrixStack_Model MatrixStack_Spec DesignVar_Base Jacobian_Model Jacobian_Spec Expr_Base Scalar_Model Scalar_Spec Scalar_Calc Scalar_Proofs Scalar_Proofs2 Geo_Model Geo_Spec Geo_Algebra Geo_Tangent Geo_Proofs Geo_Main Geo_Proofs2 Geo_Toy Quat_Model Quat_Spec Quat_Proofs Adapt_Model Adapt_Spec Adapt_Proofs Adapt_Proofs2.
Import ListNotations.
Local Open Scope R_scope.

(* (sin a cos b, sin a sin b, 0, cos a) *)
Definition aA : dvr := mkDv 6%nat true 0%Z 0%Z 1%nat 1.
Definition aB : dvr := mkDv 7%nat true 1%Z 1%Z 1%nat 1.
Definition qx : vx := VxStack (XCons (XBin BMul (XUn USin (XVar aA)) (XUn UCos (XVar aB))) (XCons (XBin BMul (XUn USin (XVar aA)) (XUn USin (XVar aB))) (XCons (XConst 0) (XCons (XUn UCos (XVar aA)) XNil)))).
Lemma qx_unit : forall s q, vxval toy_kin qx s = Ok q -> unit_quat q.
Proof.
  intros s q E. cbn in E. injection E as <-. unfold unit_quat. cbn. set (a := s 6%nat 0%nat). set (b := s 7%nat 0%nat). assert (A := sin2_cos2 a). assert (B := sin2_cos2 b). unfold Rsqr in *.
  replace (sin a * cos b * (sin a * cos b) + sin a * sin b * (sin a * sin b) + 0 * 0 + cos a * cos a) with (sin a * sin a * (sin b * sin b + cos b * cos b) + cos a * cos a) by ring. rewrite B. lra.
Qed.
Lemma two_wf : forall d d' : dvr, dv_id d <> dv_id d' -> dv_block d <> dv_block d' -> (0 <= dv_block d)%Z -> (0 <= dv_block d')%Z -> wf_dvs [d; d'].
Proof. intros d d' N1 N2 P1 P2. repeat split; cbn; intros; intuition (subst; try congruence). Qed.
Lemma qx_hyps : kinematics_ok toy_kin (fun _ => True) /\ state_ok toy_kinds toy_st /\ vxwf toy_kinds qx /\ vxsize qx = 4%nat /\ vxdom toy_kin (fun _ => True) qx toy_st /\
  stack_room 3 16 (vxwidth qx) (S (vxdepth qx)) /\ wf_dvs (vxdvs qx) /\ (In aA (vxdvs qx) /\ In aB (vxdvs qx)) /\ forall d j, stays_unit toy_kin toy_kinds qx toy_st d j.
Proof.
  split; [apply toy_kin_ok|]. split; [apply toy_state_ok|]. split; [cbn; repeat split; auto|]. split; [reflexivity|]. split; [cbn; repeat split; auto|].
  split; [repeat split; vm_compute; reflexivity|]. split.
  { apply (wf_sub [aA; aB]); [apply two_wf; cbn; discriminate || lia|]. intros x H. cbn in H. cbn. intuition auto. }
  split; [cbn; auto 20|]. intros d j. apply near_all. intros h. apply qx_unit.
Qed.

(* a plain design variable of size four *)
Definition aQ : dvr := mkDv 6%nat true 1%Z 0%Z 4%nat 1.
Definition qst : state := fun id i => if (id =? 6)%nat then if (i =? 3)%nat then 1 else 0 else toy_st id i.
Lemma free_refuted : kinematics_ok toy_kin (fun _ => True) /\ state_ok toy_kinds qst /\ vxwf toy_kinds (VxVar aQ) /\ vxsize (VxVar aQ) = 4%nat /\ vxdom toy_kin (fun _ => True) (VxVar aQ) qst /\
  stack_room 3 16 (vxwidth (VxVar aQ)) (S (vxdepth (VxVar aQ))) /\ wf_dvs (vxdvs (VxVar aQ)) /\ In aQ (vxdvs (VxVar aQ)) /\ dv_active aQ = true /\ (exists q, vxval toy_kin (VxVar aQ) qst = Ok q /\ unit_quat q) /\
  exists C, adapt_val toy_kin (VxVar aQ) qst = Ok C /\ forall phi, ~ gpartial toy_kin toy_kinds (fun s => do C <- adapt_val toy_kin (VxVar aQ) s; Ok (C 0%nat 0%nat)) qst aQ 3 (- mmul 3 (crossm phi) C 0%nat 0%nat).
Proof.
  split; [apply toy_kin_ok|]. split. { intros id K. destruct id as [|id]; [exact (toy_state_ok 0%nat eq_refl)|]. destruct id as [|[|[|[|[|id]]]]]; try discriminate. }
  split; [reflexivity|]. split; [reflexivity|]. split; [exact Logic.I|]. split; [repeat split; vm_compute; reflexivity|]. split; [apply (wf_sub [gR; aQ]); [apply two_wf; cbn; discriminate || lia|intros x H; cbn in H; cbn; intuition auto]|].
  split; [cbn; auto|]. split; [reflexivity|]. split. { eexists. split; [reflexivity|]. unfold unit_quat. cbn. ring. }
  eexists. split; [reflexivity|]. intros phi G.
  assert (A : rder (fun h => do C <- adapt_val toy_kin (VxVar aQ) (gperturb toy_kin toy_kinds qst aQ 3 h); Ok (C 0%nat 0%nat)) 0 2).
  { apply (rder_ext (fun h => Ok ((1 + h) * (1 + h)))); [intros h; cbn; f_equal; ring|]. apply rder_total. eapply (tan_ext ((fct_cte 1 + id) * (fct_cte 1 + id))%F); [apply derivable_pt_lim_mult; apply derivable_pt_lim_plus; first [apply derivable_pt_lim_const|apply derivable_pt_lim_id]|].
    unfold plus_fct, fct_cte, id. ring. }
  assert (U := rder_unique _ _ _ _ A G). unfold mmul in U. rewrite ks3 in U. cbn in U. lra.
Qed.

(** a camera with one focal length f, one distortion coefficient k and one line delay t: (f x/z + k (x/z)^2 + t y, f y/z) *)
Definition toy_cam : camera := {| cam_k := 2;
  cam_kp := fun ph p d t i => match i with 0%nat => p 0%nat * ph 0%nat + d 0%nat * (ph 0%nat * ph 0%nat) + t 0%nat * ph 1%nat | _ => p 0%nat * ph 1%nat end;
  cam_Jp := fun ph _ _ _ i _ => match i with 0%nat => ph 0%nat | _ => ph 1%nat end;
  cam_Jd := fun ph _ _ _ i _ => match i with 0%nat => ph 0%nat * ph 0%nat | _ => 0 end;
  cam_Js := fun ph _ _ _ i _ => match i with 0%nat => ph 1%nat | _ => 0 end |}.
Definition toy_cdv : camdv := {| c_p := mkDv 0%nat true 0%Z 0%Z 1%nat 1; c_d := mkDv 1%nat true 1%Z 1%Z 1%nat 1; c_s := mkDv 2%nat true 2%Z 2%Z 1%nat 1 |}.
Definition toy_cst : state := fun id i => INR (S id).
Definition toy_ph : vec R := fun i => INR (S i).
Lemma lin : forall a b l, l = b -> derivable_pt_lim (fun h => a + b * h) 0 l.
Proof. intros a b l ->. eapply (tan_ext (fct_cte a + fct_cte b * id)%F); [apply derivable_pt_lim_plus; [apply derivable_pt_lim_const|apply derivable_pt_lim_mult; [apply derivable_pt_lim_const|apply derivable_pt_lim_id]]|]. unfold fct_cte, id. ring. Qed.
Lemma toy_cam_ok : camera_ok toy_cam toy_cdv toy_ph toy_cst.
Proof.
  intros i Hi. cbn in Hi. repeat split; intros j Hj; cbn in Hj; destruct j; try lia; destruct i as [|[|i]]; try lia; cbn -[INR].
  - eapply der_ext; [|apply (lin (toy_cst 0%nat 0%nat * toy_ph 0%nat + toy_cst 1%nat 0%nat * (toy_ph 0%nat * toy_ph 0%nat) + toy_cst 2%nat 0%nat * toy_ph 1%nat) (toy_ph 0%nat)); reflexivity]. intros h. unfold bump. cbn -[INR]. ring.
  - eapply der_ext; [|apply (lin (toy_cst 0%nat 0%nat * toy_ph 1%nat) (toy_ph 1%nat)); reflexivity]. intros h. unfold bump. cbn -[INR]. ring.
  - eapply der_ext; [|apply (lin (toy_cst 0%nat 0%nat * toy_ph 0%nat + toy_cst 1%nat 0%nat * (toy_ph 0%nat * toy_ph 0%nat) + toy_cst 2%nat 0%nat * toy_ph 1%nat) (toy_ph 0%nat * toy_ph 0%nat)); reflexivity]. intros h. unfold bump. cbn -[INR]. ring.
  - apply derivable_pt_lim_const.
  - eapply der_ext; [|apply (lin (toy_cst 0%nat 0%nat * toy_ph 0%nat + toy_cst 1%nat 0%nat * (toy_ph 0%nat * toy_ph 0%nat) + toy_cst 2%nat 0%nat * toy_ph 1%nat) (toy_ph 1%nat)); reflexivity]. intros h. unfold bump. cbn -[INR]. ring.
  - apply derivable_pt_lim_const.
Qed.
Lemma toy_cam_hyps : camera_ok toy_cam toy_cdv toy_ph toy_cst /\ cam_wf toy_cdv /\ wf_dvs (cam_dvs toy_cdv) /\ (forall d, In d (cam_dvs toy_cdv) -> dv_active d = true /\ dv_dim d = 1%nat) /\ (0 < 16)%nat /\ (N.of_nat 1 < 65536)%N /\ (N.of_nat (cam_k toy_cam) < 65536)%N.
Proof.
  split; [apply toy_cam_ok|]. split; [repeat split; cbn; discriminate|]. split.
  { repeat split.
    - intros d d' H H'. cbn in H, H'. repeat (destruct H as [<-|H]; [|]); repeat (destruct H' as [<-|H']; [|]); try contradiction; cbn; intros; try discriminate; auto.
    - intros d H _. cbn in H. repeat (destruct H as [<-|H]; [cbn; lia|]). contradiction.
    - intros d d' H H'. cbn in H, H'. repeat (destruct H as [<-|H]; [|]); repeat (destruct H' as [<-|H']; [|]); try contradiction; cbn; intros; try discriminate; auto. }
  split; [intros d Hd; cbn in Hd; intuition (subst; auto)|]. split; [lia|]. split; reflexivity.
Qed.
(* without the chain rule the active shutter is forgotten *)
Lemma shutter_refuted : forall y c, jc_run _ sp_addJ 16 (sp_init (cam_k toy_cam)) (cam_jac toy_cam toy_cdv toy_ph toy_cst) = Ok c ->
  ~ derivable_pt_lim (fun h => residual toy_cam toy_cdv toy_ph y (moved toy_cst (c_s toy_cdv) 0 h) 0%nat) 0 (jacobian_entry (jc_store c) (c_s toy_cdv) 0 0).
Proof.
  intros y c Er D. destruct toy_cam_hyps as (H1 & H2 & H3 & H4 & H5 & _ & H7).
  destruct (cam_plain_main toy_cam toy_cdv toy_ph y toy_cst 16 H1 H2 H5 H3 H7) as (c' & Er' & _ & Z). rewrite Er in Er'. injection Er' as <-. rewrite (Z 0%nat 0%nat ltac:(cbn; lia) ltac:(cbn; lia) eq_refl) in D.
  assert (A := res_der toy_cam toy_cdv toy_ph y toy_cst H1 H2 (c_s toy_cdv) 0%nat 0%nat ltac:(cbn; auto) ltac:(cbn; lia) ltac:(cbn; lia)). assert (U := uniqueness_limite _ 0 _ _ A D). cbn in U. unfold camJ in U. cbn in U. lra.
Qed.
