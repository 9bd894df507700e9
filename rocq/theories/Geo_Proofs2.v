(** * Jacobians of geometric expressions in the container (proofs only) *)
From Coq Require Import Arith Lia List ZArith NArith Bool Reals Lra.
From Verif Require Import Lib_Ring Lib_Real Lib_Res MatrixStack_Model MatrixStack_Spec DesignVar_Base Jacobian_Model Jacobian_Spec Expr_Base Scalar_Model Scalar_Spec Scalar_Calc Scalar_Proofs Scalar_Proofs2 Geo_Model Geo_Spec Geo_Algebra Geo_Proofs Geo_Tangent Geo_Main.
Import ListNotations.
Local Open Scope R_scope.

Lemma widths : (forall e, 6 <= sxwidth e)%nat /\ (forall e, 6 <= vxwidth e)%nat /\ (forall e, 6 <= slwidth e)%nat /\ (forall e, 6 <= rxwidth e)%nat /\ (forall e, 6 <= txwidth e)%nat /\ (forall e, 6 <= hxwidth e)%nat.
Proof. apply geo_ind; intros; cbn [sxwidth vxwidth slwidth rxwidth txwidth hxwidth]; lia. Qed.
Lemma dvs_ok : forall kinds,
  (forall e, sxwf kinds e -> forall d, In d (sxdvs e) -> dv_ok kinds d) /\ (forall e, vxwf kinds e -> forall d, In d (vxdvs e) -> dv_ok kinds d) /\ (forall e, slwf kinds e -> forall d, In d (sldvs e) -> dv_ok kinds d) /\
  (forall e, rxwf kinds e -> forall d, In d (rxdvs e) -> dv_ok kinds d) /\ (forall e, txwf kinds e -> forall d, In d (txdvs e) -> dv_ok kinds d) /\ (forall e, hxwf kinds e -> forall d, In d (hxdvs e) -> dv_ok kinds d).
Proof.
  intros kinds. apply geo_ind; cbn [sxwf vxwf slwf rxwf txwf hxwf sxdvs vxdvs sldvs rxdvs txdvs hxdvs]; intros;
    repeat match goal with H : _ /\ _ |- _ => destruct H | H : In _ (_ ++ _) |- _ => apply in_app_or in H; destruct H end; auto;
    try match goal with H : In _ [] |- _ => destruct H end;
    try match goal with H : In _ [_] |- _ => destruct H as [<-|[]]; unfold dv_ok; match goal with E : kinds _ = _ |- _ => rewrite E end; auto end.
  match goal with H : In _ (if _ then _ else _) |- _ => destruct (dv_dim d =? 0)%nat; [destruct H|destruct H as [<-|[]]] end. unfold dv_ok. match goal with E : kinds _ = _ |- _ => rewrite E end. auto.
Qed.

(* values that are rotations and rigid transformations *)
Lemma values_ok : forall X par_dom kinds s, kinematics_ok X par_dom -> state_ok kinds s ->
  (forall e : sx, True) /\ (forall e : vx, True) /\ (forall e : sl, True) /\ (forall e, rxwf kinds e -> forall C, rxval X e s = Ok C -> is_rot C) /\ (forall e, txwf kinds e -> forall T, txval X e s = Ok T -> rigid T) /\ (forall e : hx, True).
Proof.
  intros X par_dom kinds s KO SO. apply geo_ind; try (intros; exact I); cbn [rxwf txwf rxval txval].
  - intros d (K & _) C E. injection E as <-. apply SO. auto.
  - intros C RC C' E. injection E as <-. auto.
  - intros nd a IHa b IHb (Wa & Wb) C E. destruct (rxval X a s) as [A| |]; try discriminate. cbn [bind] in E. destruct (rxval X b s) as [B| |]; try discriminate. injection E as <-. apply rot_mul; auto.
  - intros nd a IHa Wa C E. destruct (rxval X a s) as [A| |]; try discriminate. injection E as <-. apply rot_tr; auto.
  - intros t IHt Wt C E. destruct (txval X t s) as [T| |]; try discriminate. injection E as <-. apply (IHt Wt T eq_refl).
  - intros axis e _ (Ha & _) C E. destruct (sxval X e s); try discriminate. injection E as <-. apply rot_axis; auto.
  - intros r IHr p _ (Wr & _) T E. destruct (rxval X r s) as [C| |]; try discriminate. cbn [bind] in E. destruct (vxval X p s); try discriminate. injection E as <-. apply rigid_mk; auto.
  - intros r IHr Wr T E. destruct (rxval X r s) as [C| |]; try discriminate. injection E as <-. apply rigid_mk; auto.
  - intros p _ _ T E. destruct (vxval X p s); try discriminate. injection E as <-. apply rigid_mk, rot_id.
  - intros nd a IHa b IHb (Wa & Wb) C E. destruct (txval X a s) as [A| |]; try discriminate. cbn [bind] in E. destruct (txval X b s) as [B| |]; try discriminate. injection E as <-. apply rigid_mul; auto.
  - intros nd a IHa Wa T E. destruct (txval X a s) as [A| |]; try discriminate. injection E as <-. specialize (IHa Wa A eq_refl). destruct KO as (_ & _ & _ & _ & _ & _ & _ & _ & _ & IV).
    apply (rigid_ext (rigid_inv A)); [|apply rigid_inv_rigid; auto]. intros i j Hi Hj. symmetry. apply IV; auto. apply rigid_inv_l; auto.
  - intros T RT T' E. injection E as <-. auto.
Qed.

Lemma tan_partial : forall X kinds s d j (f : state -> res R) g l, curve (fun h => f (gp X kinds s d j h)) g -> derivable_pt_lim g 0 l -> gpartial X kinds f s d j l.
Proof. intros X kinds s d j f g l (de & Hd & H) D. exists g, de. split; auto. split; auto. intros y Hy. rewrite Rminus_0_r in Hy. apply H; auto. Qed.
Lemma curve_map : forall V W (f : R -> res V) g (F : V -> W), curve f g -> curve (fun h => do x <- f h; Ok (F x)) (fun h => F (g h)).
Proof. intros V W f g F C. eapply near_mono; [|exact C]. intros h H. cbn beta in *. rewrite H. reflexivity. Qed.

Section Top.
  Variables (X : kinematics) (par_dom : mat R -> Prop) (kinds : nat -> kind) (s : state) (al : nat).
  Hypothesis KO : kinematics_ok X par_dom.
  Hypothesis SO : state_ok kinds s.
  Hypothesis Ha : (0 < al)%nat.

  Lemma good_container : forall V tan m w depth dvs (val : state -> res V) jac v ops D, good X kinds s w tan m depth dvs val jac v ops D -> (N.of_nat m < 65536)%N -> stack_room m al w depth -> wf_dvs dvs ->
    exists c, jc_run _ sp_addJ al (sp_init m) ops = Ok c /\ forall d i j, In d dvs -> dv_active d = true -> (i < m)%nat -> (j < dv_dim d)%nat -> jacobian_entry (jc_store c) d i j = D d i j.
  Proof.
    intros V tan m w depth dvs val jac v ops D (E & J & C & I1 & P) Hm Ro Wd. destruct (contributes_entry m w depth ops D al dvs C Ha Hm (stack_room_room _ _ _ _ Ro) Wd I1) as (c & Er & _ & En).
    exists c. split; [exact Er|]. intros. apply En; auto.
  Qed.

  Lemma scalar_geo : forall e, sxwf kinds e -> sxdom X par_dom e s -> stack_room 1 al (sxwidth e) (sxdepth e) -> wf_dvs (sxdvs e) ->
    exists v ops c, sxval X e s = Ok v /\ sxjac X e s = Ok ops /\ jc_run _ sp_addJ al (sp_init 1) ops = Ok c /\
      forall d j, In d (sxdvs e) -> dv_active d = true -> (j < dv_dim d)%nat -> gpartial X kinds (sxval X e) s d j (jacobian_entry (jc_store c) d 0 j).
  Proof.
    intros e W Dm Ro Wd. destruct (proj1 (main X par_dom kinds s (sxwidth e) KO SO (proj1 widths e)) e W Dm (le_n _)) as (v & ops & D & G).
    destruct (good_container _ _ _ _ _ _ _ _ _ _ _ G eq_refl Ro Wd) as (c & Er & En). exists v, ops, c. split; [apply G|]. split; [apply G|]. split; auto. intros d j Hd Ad Hj.
    rewrite En by auto. destruct G as (_ & _ & _ & _ & P). destruct (P d j (proj1 (dvs_ok kinds) e W d Hd) Hj) as (g & C & T). apply (tan_partial _ _ _ _ _ _ g); auto.
  Qed.
  Lemma vector_geo : forall e, vxwf kinds e -> vxdom X par_dom e s -> stack_room (vxsize e) al (vxwidth e) (vxdepth e) -> wf_dvs (vxdvs e) ->
    exists v ops c, vxval X e s = Ok v /\ vxjac X e s = Ok ops /\ jc_run _ sp_addJ al (sp_init (vxsize e)) ops = Ok c /\
      forall d i j, In d (vxdvs e) -> dv_active d = true -> (i < vxsize e)%nat -> (j < dv_dim d)%nat -> gpartial X kinds (fun s => do x <- vxval X e s; Ok (x i)) s d j (jacobian_entry (jc_store c) d i j).
  Proof.
    intros e W Dm Ro Wd. destruct (proj1 (proj2 (main X par_dom kinds s (vxwidth e) KO SO (proj1 (proj2 widths) e))) e W Dm (le_n _)) as ((v & ops & D & G) & Sw).
    assert (Hm : (N.of_nat (vxsize e) < 65536)%N) by (destruct Ro; lia).
    destruct (good_container _ _ _ _ _ _ _ _ _ _ _ G Hm Ro Wd) as (c & Er & En). exists v, ops, c. split; [apply G|]. split; [apply G|]. split; auto. intros d i j Hd Ad Hi Hj.
    rewrite En by auto. destruct G as (_ & _ & _ & _ & P). destruct (P d j (proj1 (proj2 (dvs_ok kinds)) e W d Hd) Hj) as (g & C & T). apply (tan_partial _ _ _ _ _ _ (fun h => g h i)); [|apply T; auto].
    apply (curve_map _ _ _ g (fun x => x i)); auto.
  Qed.
  Lemma rotation_geo : forall e, rxwf kinds e -> rxdom X par_dom e s -> stack_room 3 al (rxwidth e) (rxdepth e) -> wf_dvs (rxdvs e) ->
    exists C ops c, rxval X e s = Ok C /\ rxjac X e s = Ok ops /\ jc_run _ sp_addJ al (sp_init 3) ops = Ok c /\
      forall d p q j, In d (rxdvs e) -> dv_active d = true -> (p < 3)%nat -> (q < 3)%nat -> (j < dv_dim d)%nat ->
        gpartial X kinds (fun s => do C <- rxval X e s; Ok (C p q)) s d j (- mmul 3 (crossm (fun i => jacobian_entry (jc_store c) d i j)) C p q).
  Proof.
    intros e W Dm Ro Wd. destruct (proj1 (proj2 (proj2 (proj2 (main X par_dom kinds s (rxwidth e) KO SO (proj1 (proj2 (proj2 (proj2 widths))) e))))) e W Dm (le_n _)) as (C & ops & D & G).
    destruct (good_container _ _ _ _ _ _ _ _ _ _ _ G eq_refl Ro Wd) as (c & Er & En). exists C, ops, c. split; [apply G|]. split; [apply G|]. split; auto. intros d p q j Hd Ad Hp Hq Hj.
    assert (G' := G). destruct G as (E & _ & _ & _ & P). destruct (P d j (proj1 (proj2 (proj2 (proj2 (dvs_ok kinds)))) e W d Hd) Hj) as (g & Cu & (N & V)). apply (tan_partial _ _ _ _ _ _ (fun h => g h p q)).
    - apply (curve_map _ _ _ g (fun C => C p q)); auto.
    - rewrite <- (curve_at0 X par_dom kinds s KO _ _ _ _ _ _ Cu E). apply (vel_ext g (fun i => D d i j)); auto. intros k Hk. rewrite En; auto.
  Qed.
  Lemma transformation_geo : forall e, txwf kinds e -> txdom X par_dom e s -> stack_room 6 al (txwidth e) (txdepth e) -> wf_dvs (txdvs e) ->
    exists T ops c, txval X e s = Ok T /\ txjac X e s = Ok ops /\ jc_run _ sp_addJ al (sp_init 6) ops = Ok c /\
      forall d p j, In d (txdvs e) -> dv_active d = true -> (p < 3)%nat -> (j < dv_dim d)%nat ->
        (forall q, (q < 3)%nat -> gpartial X kinds (fun s => do T <- txval X e s; Ok (T p q)) s d j (- mmul 3 (crossm (fun i => jacobian_entry (jc_store c) d (3 + i) j)) T p q)) /\
        gpartial X kinds (fun s => do T <- txval X e s; Ok (T p 3%nat)) s d j (jacobian_entry (jc_store c) d p j + mvmul 3 (crossm (fun i => T i 3%nat)) (fun i => jacobian_entry (jc_store c) d (3 + i) j) p).
  Proof.
    intros e W Dm Ro Wd. destruct (proj1 (proj2 (proj2 (proj2 (proj2 (main X par_dom kinds s (txwidth e) KO SO (proj1 (proj2 (proj2 (proj2 (proj2 widths)))) e)))))) e W Dm (le_n _)) as (T & ops & D & G).
    destruct (good_container _ _ _ _ _ _ _ _ _ _ _ G eq_refl Ro Wd) as (c & Er & En). exists T, ops, c. split; [apply G|]. split; [apply G|]. split; auto. intros d p j Hd Ad Hp Hj.
    assert (G' := G). destruct G as (E & _ & _ & _ & P). destruct (P d j (proj1 (proj2 (proj2 (proj2 (proj2 (dvs_ok kinds))))) e W d Hd) Hj) as (g & Cu & (N & V & Tr)).
    assert (Z := curve_at0 X par_dom kinds s KO _ _ _ _ _ _ Cu E). rewrite <- Z. split.
    - intros q Hq. apply (tan_partial _ _ _ _ _ _ (fun h => g h p q)).
      + apply (curve_map _ _ _ g (fun C => C p q)); auto.
      + apply (vel_ext g (ang (fun i => D d i j))); auto. intros k Hk. unfold ang. rewrite En; auto. lia.
    - apply (tan_partial _ _ _ _ _ _ (fun h => g h p 3%nat)).
      + apply (curve_map _ _ _ g (fun C => C p 3%nat)); auto.
      + eapply der_eq; [|apply Tr; auto]. rewrite En by (auto; lia). f_equal. unfold mvmul, trans_part, ang. apply ksum_ext. intros k Hk. rewrite En by (auto; lia). auto.
  Qed.
  Lemma homogeneous_geo : forall e, hxwf kinds e -> hxdom X par_dom e s -> stack_room 4 al (hxwidth e) (hxdepth e) -> wf_dvs (hxdvs e) ->
    exists v ops c, hxval X e s = Ok v /\ hxjac X e s = Ok ops /\ jc_run _ sp_addJ al (sp_init 4) ops = Ok c /\
      forall d i j, In d (hxdvs e) -> dv_active d = true -> (i < 4)%nat -> (j < dv_dim d)%nat -> gpartial X kinds (fun s => do x <- hxval X e s; Ok (x i)) s d j (jacobian_entry (jc_store c) d i j).
  Proof.
    intros e W Dm Ro Wd. destruct (proj2 (proj2 (proj2 (proj2 (proj2 (main X par_dom kinds s (hxwidth e) KO SO (proj2 (proj2 (proj2 (proj2 (proj2 widths)))) e)))))) e W Dm (le_n _)) as (v & ops & D & G).
    destruct (good_container _ _ _ _ _ _ _ _ _ _ _ G eq_refl Ro Wd) as (c & Er & En). exists v, ops, c. split; [apply G|]. split; [apply G|]. split; auto. intros d i j Hd Ad Hi Hj.
    rewrite En by auto. destruct G as (_ & _ & _ & _ & P). destruct (P d j (proj2 (proj2 (proj2 (proj2 (proj2 (dvs_ok kinds))))) e W d Hd) Hj) as (g & C & T). apply (tan_partial _ _ _ _ _ _ (fun h => g h i)); [|apply T; auto].
    apply (curve_map _ _ _ g (fun x => x i)); auto.
  Qed.
End Top.
