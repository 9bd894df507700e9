(** * Concrete geometric expressions, used as examples next to the theorems *)
From Coq Require Import Arith Lia List ZArith NArith Bool Reals Lra FunctionalExtensionality.
From Verif Require Import Lib_Ring Lib_Real Lib_Res MatrixStack_Model MatrixStack_Spec DesignVar_Base Jacobian_Model Jacobian_Spec Expr_Base Scalar_Model Scalar_Spec Scalar_Calc Scalar_Proofs Scalar_Proofs2 Geo_Model Geo_Spec Geo_Algebra Geo_Proofs Geo_Tangent Geo_Main Geo_Proofs2.
Import ListNotations.
Local Open Scope R_scope.

(** an instance of the external functions: rotations about the coordinate axes, a quaternion-like additive update, the off-diagonal parameters *)
Definition toy_kin : kinematics := {|
  rot_update := fun v j h i => if (j <? 3)%nat && (i <? 9)%nat then mmul 3 (axis_rot j (- h)) (m3 v) (i / 3)%nat (i mod 3)%nat else v i;
  hom_update := fun v j h i => v i + h * v ((i + j + 1) mod 4)%nat;
  hom_jac := fun v i j => v ((i + j + 1) mod 4)%nat;
  ypr := fun j h => match j with O => axis_rot 1 h | _ => axis_rot 0 h end;
  rot_params := fun C i => C ((i + 2) mod 3)%nat ((i + 1) mod 3)%nat;
  rot_params_jac := fun C i k => - mmul 3 (crossm (delta k)) C ((i + 2) mod 3)%nat ((i + 1) mod 3)%nat;
  inv4 := rigid_inv |}.
Lemma axis_rot_0 : forall a i j, (a < 3)%nat -> (i < 3)%nat -> (j < 3)%nat -> axis_rot a 0 i j = delta i j.
Proof. intros a i j Ha Hi Hj. idx a; idx i; idx j; cbn; rewrite ?sin_0, ?cos_0; try reflexivity; ring. Qed.
Lemma m3_rebuild : forall (A : mat R) p q, (p < 3)%nat -> (q < 3)%nat -> A ((3 * p + q) / 3)%nat ((3 * p + q) mod 3)%nat = A p q.
Proof. intros A p q Hp Hq. replace ((3 * p + q) / 3)%nat with p by (apply (Nat.div_unique _ 3 p q); lia). replace ((3 * p + q) mod 3)%nat with q by (apply (Nat.mod_unique _ 3 p q); lia). auto. Qed.
Lemma toy_m3 : forall v j h p q, (j < 3)%nat -> (p < 3)%nat -> (q < 3)%nat -> m3 (rot_update toy_kin v j h) p q = mmul 3 (axis_rot j (- h)) (m3 v) p q.
Proof.
  intros v j h p q Hj Hp Hq. unfold m3 at 1. cbn [rot_update toy_kin]. destruct (Nat.ltb_spec j 3); [|lia]. destruct (Nat.ltb_spec (3 * p + q) 9); [|lia]. cbn [andb]. apply (m3_rebuild (mmul 3 (axis_rot j (- h)) (m3 v))); auto.
Qed.
Lemma rigid_inv_r : forall T, rigid T -> meq 4 4 (mmul 4 T (rigid_inv T)) mid.
Proof.
  intros T HT. assert (HT' := HT). destruct HT as (H1 & H2 & H3). assert (RI := rigid_inv_rigid T HT'). intros i j Hi Hj. destruct (Nat.ltb_spec i 3) as [Li|Li].
  - destruct (Nat.ltb_spec j 3) as [Lj|Lj].
    + rewrite rigid_rot_mul by auto. transitivity (mmul 3 T (mtr T) i j); [|destruct H1 as (H1 & _); apply H1; auto].
      apply mul_congr. intros k Hk. unfold rigid_inv, mk_T. destruct (Nat.ltb_spec k 3); [|lia]. destruct (Nat.ltb_spec j 3); [auto|lia].
    + assert (j = 3%nat) by lia. subst j. rewrite rigid_trans_mul by auto.
      rewrite (mv_ext T (trans_part (rigid_inv T)) (fun k => - mvmul 3 (mtr T) (trans_part T) k)).
      2: { intros k Hk. unfold trans_part at 1, rigid_inv, mk_T. destruct (Nat.ltb_spec k 3); [reflexivity|lia]. }
      pose proof (rot_inv_v (mtr T) (trans_part T) i (rot_tr _ H1) Li) as Q. change (mtr (mtr T)) with T in Q.
      transitivity (- mvmul 3 T (mvmul 3 (mtr T) (trans_part T)) i + T i 3%nat); [unfold mvmul; rewrite !ks3; cbn; ring|]. rewrite Q. unfold trans_part, mid, delta. destruct (Nat.eqb_spec i 3); [lia|]. cbn. ring.
  - assert (i = 3%nat) by lia. subst i. unfold mmul. rewrite ks4. rewrite !H2, H3 by lia. idx j; unfold rigid_inv, mk_T, mid, delta; cbn; ring.
Qed.
Lemma toy_kin_ok : kinematics_ok toy_kin (fun _ => True).
Proof.
  assert (TA : forall a, (a < 3)%nat -> tanR (fun h => axis_rot a (- h)) (fun i => ksum 1 (fun k => - delta i a * -1))).
  { intros a Ha. apply (tR_axis a (fun h => - h) (fun _ => -1)); auto. unfold tanS. apply (der_eq _ _ (-1)); [ring|]. apply (der_opp (fun h => h)). apply der_id. }
  split; [|split; [|split; [|split; [|split; [|split; [|split; [|split; [|split]]]]]]]].
  - intros v j. apply functional_extensionality. intros i. cbn [rot_update toy_kin]. destruct (Nat.ltb_spec j 3) as [Hj|Hj]; auto. destruct (Nat.ltb_spec i 9) as [Hi|Hi]; auto. cbn [andb].
    assert (i mod 3 < 3)%nat by (apply Nat.mod_upper_bound; lia). assert (i / 3 < 3)%nat by (apply Nat.div_lt_upper_bound; lia). rewrite Ropp_0, mid_l; auto.
    + unfold m3. f_equal. rewrite <- Nat.div_mod; lia.
    + intros p q Hp Hq. apply axis_rot_0; auto.
  - intros v j Hj. apply (vel_near (fun h => mmul 3 (axis_rot j (- h)) (m3 v))); [apply near_all; intros h p q Hp Hq; symmetry; apply toy_m3; auto|].
    intros p q Hp Hq. eapply der_eq; [|apply (der_mm 3 (fun h => axis_rot j (- h)) (fun _ => m3 v) (fun k => - mmul 3 (crossm (fun i => ksum 1 (fun _ => - delta i j * -1))) (axis_rot j (- 0)) p k) (fun _ => 0)); [intros k Hk; apply (TA j Hj); auto|intros; apply der_const]].
    rewrite Ropp_0. set (A := m3 v). rewrite !ks3. unfold mmul. rewrite !ks3. rewrite !axis_rot_0 by lia. idx j; idx p; cbn; rewrite ?sin_0, ?cos_0; ring.
  - intros v j h Rv. destruct (Nat.ltb_spec j 3) as [Hj|Hj].
    + apply (rot_ext (mmul 3 (axis_rot j (- h)) (m3 v))); [intros p q Hp Hq; symmetry; apply toy_m3; auto|]. apply rot_mul; auto. apply rot_axis; auto.
    + apply (rot_ext (m3 v)); auto. intros p q Hp Hq. unfold m3. cbn [rot_update toy_kin]. destruct (Nat.ltb_spec j 3); [lia|]. auto.
  - intros v j. apply functional_extensionality. intros i. cbn [hom_update toy_kin]. ring.
  - intros v i j Hi Hj. cbn [hom_update hom_jac toy_kin]. apply (der_eq _ _ (0 + 1 * v ((i + j + 1) mod 4)%nat)); [ring|]. apply der_plus; [apply der_const|apply der_scal_r, der_id].
  - intros j p q Hp Hq. cbn [ypr toy_kin]. destruct j; apply axis_rot_0; auto.
  - intros k Hk. cbn [ypr toy_kin]. idx k; cbn.
    + apply (der_eq _ _ (- cos 0)); [rewrite cos_0; ring|]. apply (der_opp sin). apply derivable_pt_lim_sin.
    + apply (der_eq _ _ 0); [ring|apply der_const].
    + apply (der_eq _ _ (- sin 0)); [rewrite sin_0; ring|apply derivable_pt_lim_cos].
  - intros k Hk. cbn [ypr toy_kin]. idx k; cbn.
    + apply der_const.
    + apply (der_eq _ _ (cos 0)); [rewrite cos_0; ring|]. apply derivable_pt_lim_sin.
    + apply (der_eq _ _ (- sin 0)); [rewrite sin_0; ring|apply derivable_pt_lim_cos].
  - intros g phi i _ _ V Hi. cbn [rot_params rot_params_jac toy_kin]. eapply der_eq; [|apply V; apply Nat.mod_upper_bound; lia]. set (A := g 0). idx i; unfold mvmul, mmul; rewrite !ks3; unfold delta; cbn; ring.
  - intros T S0 RT H. cbn [inv4 toy_kin]. intros i j Hi Hj.
    transitivity (mmul 4 (mmul 4 S0 T) (rigid_inv T) i j).
    + symmetry. unfold mmul at 1. rewrite (ksum_ext 4 _ (fun l => kmul (mid i l) (rigid_inv T l j))); [|intros l Hl; rewrite H by auto; auto]. unfold mid. apply (@ksum_delta_l R RRing 4 i (fun k => rigid_inv T k j)); auto.
    + transitivity (mmul 4 S0 (mmul 4 T (rigid_inv T)) i j); [unfold mmul; rewrite !ks4; cbn; ring|].
      unfold mmul at 1. rewrite (ksum_ext 4 _ (fun l => kmul (S0 i l) (mid l j))); [|intros l Hl; rewrite rigid_inv_r by auto; auto]. unfold mid. apply (@ksum_delta_r R RRing 4 j (fun k => S0 i k)); auto.
Qed.

(** a rotation, two points, a scalar, a direction, a homogeneous point, a matrix *)
Definition gR : dvr := mkDv 0%nat true 0%Z 0%Z 3%nat 1.
Definition gT : dvr := mkDv 1%nat true 1%Z 3%Z 3%nat 1.
Definition gS : dvr := mkDv 2%nat true 2%Z 6%Z 1%nat 1.
Definition gD : dvr := mkDv 3%nat true 3%Z 7%Z 2%nat 1.
Definition gH : dvr := mkDv 4%nat true 4%Z 9%Z 3%nat 1.
Definition gM : dvr := mkDv 5%nat true 5%Z 12%Z 2%nat 1.
Definition Bm : mat R := fun i j => if (i =? 3 * j)%nat then 1 else 0.
Definition toy_kinds (id : nat) : kind := match id with 0 => KRot | 3 => KDir | 4 => KHom | 5 => KMat 2 Bm | _ => KVec end.
(* the rotation by 1 rad about z, the point (1, 2, 3), the scalar 2, the direction z, the homogeneous point (0, 1, 2, 3), a matrix *)
Definition toy_st : state := fun id i =>
  match id with 0%nat => axis_rot 2 1 (i / 3)%nat (i mod 3)%nat | 1%nat => INR (i + 1) | 2%nat => 2 | 3%nat => axis_rot 0 0 (i / 3)%nat (i mod 3)%nat | 4%nat => INR i | _ => INR (i * i) end.
(* T = [R, t] * inverse of [Rot_x(s), d] *)
Definition toy_t : tx := TxMul 0 (TxRT (RxVar gR) (VxVar gT)) (TxInv 1 (TxRT (RxAxis 0 (XVar gS)) (ExDir gD 5))).
Definition toy_h : hx := HxMul 2 toy_t (HxMul 3 (TxR (RxInv 4 (RxVar gR))) (HxPoint gH)).
(* the components of T p for the homogeneous 0-1-2-1 point, times a matrix, cross product with R d *)
Definition toy_v : vx := ExCross (ExSub (ExMat 5 gM Bm (ExHom (HxMul 6 (TxT (VxVar gT)) (HxOfE (VxVar gT))))) (ExTrans toy_t)) (ExRot 7 (RxMul 8 (RxVar gR) (RxOfT toy_t)) (VxScale (ExDir gD 2) (XUn USin (XVar gS)))).
Definition toy_s : sx := XBin BMul (XComp (ExPar (RxMul 9 (RxVar gR) (RxInv 10 (RxAxis 1 (XVar gS))))) 2) (XComp toy_v 1).
Lemma toy_state_ok : state_ok toy_kinds toy_st.
Proof.
  intros id K. destruct id as [|[|[|[|[|[|id]]]]]]; try discriminate. apply (rot_ext (axis_rot 2 1)); [|apply rot_axis; lia]. intros p q Hp Hq. unfold m3, toy_st. symmetry. apply (m3_rebuild (axis_rot 2 1)); auto.
Qed.
Lemma toy_t_wf : txwf toy_kinds toy_t.
Proof. cbn. repeat split; auto; lia. Qed.
Lemma toy_v_wf : vxwf toy_kinds toy_v.
Proof. cbn. repeat split; auto; lia. Qed.
Lemma toy_v_dom : vxdom toy_kin (fun _ => True) toy_v toy_st.
Proof.
  cbn [vxdom hxdom txdom rxdom sxdom toy_v toy_t]. repeat split; auto. intros x E. cbn [hxval txval vxval bind] in E. injection E as <-. unfold mvmul. rewrite ks4. cbn. lra.
Qed.
Lemma toy_wf6 : wf_dvs [gR; gT; gS; gD; gH; gM].
Proof.
  repeat split.
  - intros d d' H H'. cbn in H, H'. repeat (destruct H as [<-|H]; [|]); repeat (destruct H' as [<-|H']; [|]); try contradiction; cbn; intros; try discriminate; auto.
  - intros d H _. cbn in H. repeat (destruct H as [<-|H]; [cbn; lia|]). contradiction.
  - intros d d' H H'. cbn in H, H'. repeat (destruct H as [<-|H]; [|]); repeat (destruct H' as [<-|H']; [|]); try contradiction; cbn; intros; try discriminate; auto.
Qed.
Ltac wf6 := apply (wf_sub [gR; gT; gS; gD; gH; gM]); [apply toy_wf6|]; let x := fresh in let H := fresh in intros x H; cbn in H; cbn; intuition auto.
Lemma toy_s_hyps : kinematics_ok toy_kin (fun _ => True) /\ state_ok toy_kinds toy_st /\ sxwf toy_kinds toy_s /\ sxdom toy_kin (fun _ => True) toy_s toy_st /\ stack_room 1 16 (sxwidth toy_s) (sxdepth toy_s) /\ wf_dvs (sxdvs toy_s) /\ In gM (sxdvs toy_s).
Proof.
  split; [apply toy_kin_ok|]. split; [apply toy_state_ok|]. split; [cbn; repeat split; auto; lia|]. split; [|split; [split; [reflexivity|split; reflexivity]|split; [wf6|cbn; auto 20]]].
  cbn [sxdom vxdom rxdom toy_s]. pose proof toy_v_dom. repeat split; auto; apply H.
Qed.
Lemma toy_v_hyps : kinematics_ok toy_kin (fun _ => True) /\ state_ok toy_kinds toy_st /\ vxwf toy_kinds toy_v /\ vxdom toy_kin (fun _ => True) toy_v toy_st /\ stack_room (vxsize toy_v) 16 (vxwidth toy_v) (vxdepth toy_v) /\ wf_dvs (vxdvs toy_v) /\ In gD (vxdvs toy_v).
Proof. split; [apply toy_kin_ok|]. split; [apply toy_state_ok|]. split; [apply toy_v_wf|]. split; [apply toy_v_dom|]. split; [split; [reflexivity|split; reflexivity]|]. split; [wf6|cbn; auto 20]. Qed.
Lemma toy_t_hyps : kinematics_ok toy_kin (fun _ => True) /\ state_ok toy_kinds toy_st /\ txwf toy_kinds toy_t /\ txdom toy_kin (fun _ => True) toy_t toy_st /\ stack_room 6 16 (txwidth toy_t) (txdepth toy_t) /\ wf_dvs (txdvs toy_t) /\ In gR (txdvs toy_t).
Proof. split; [apply toy_kin_ok|]. split; [apply toy_state_ok|]. split; [apply toy_t_wf|]. split; [cbn; auto|]. split; [split; [reflexivity|split; reflexivity]|]. split; [wf6|cbn; auto 20]. Qed.
Definition toy_r : rx := RxMul 11 (RxOfT toy_t) (RxMul 12 (RxInv 4 (RxVar gR)) (RxAxis 2 (XVar gS))).
Lemma toy_r_hyps : kinematics_ok toy_kin (fun _ => True) /\ state_ok toy_kinds toy_st /\ rxwf toy_kinds toy_r /\ rxdom toy_kin (fun _ => True) toy_r toy_st /\ stack_room 3 16 (rxwidth toy_r) (rxdepth toy_r) /\ wf_dvs (rxdvs toy_r) /\ In gS (rxdvs toy_r).
Proof. split; [apply toy_kin_ok|]. split; [apply toy_state_ok|]. split; [cbn; repeat split; auto; lia|]. split; [cbn; auto 10|]. split; [split; [reflexivity|split; reflexivity]|]. split; [wf6|cbn; auto 20]. Qed.
Lemma toy_h_hyps : kinematics_ok toy_kin (fun _ => True) /\ state_ok toy_kinds toy_st /\ hxwf toy_kinds toy_h /\ hxdom toy_kin (fun _ => True) toy_h toy_st /\ stack_room 4 16 (hxwidth toy_h) (hxdepth toy_h) /\ wf_dvs (hxdvs toy_h) /\ In gH (hxdvs toy_h).
Proof. split; [apply toy_kin_ok|]. split; [apply toy_state_ok|]. split; [cbn; repeat split; auto; lia|]. split; [cbn; auto 10|]. split; [split; [reflexivity|split; reflexivity]|]. split; [wf6|cbn; auto 20]. Qed.
