(** * ErrorTermTransformation and counterexamples (proofs only) *)
From Coq Require Import Arith Lia List ZArith NArith Bool Reals Lra.
From Verif Require Import Lib_Ring Lib_Real Lib_Res MatrixStack_Model MatrixStack_Spec DesignVar_Base Jacobian_Model Jacobian_Spec Expr_Base Scalar_Model Scalar_Spec Scalar_Calc Scalar_Proofs Scalar_Proofs2
  Geo_Model Geo_Spec Geo_Algebra Geo_Proofs Geo_Tangent Geo_Main Geo_Proofs2 Geo_Toy Terms_Model Terms_Spec Terms_Proofs.
Import ListNotations.
Local Open Scope R_scope.

Lemma tT_const : forall P, rigid P -> tanT (fun _ => P) (fun _ => 0).
Proof.
  intros P RP. split; [apply near_all; auto|]. split.
  - intros i j Hi Hj. eapply der_eq; [|apply der_const]. unfold mmul. rewrite ks3. idx i; unfold ang, crossm; cbn; ring.
  - intros i Hi. eapply der_eq; [|apply der_const]. unfold mvmul. rewrite ks3. unfold ang. cbn. ring.
Qed.
Lemma tT_ext : forall g a b, (forall k, (k < 6)%nat -> a k = b k) -> tanT g a -> tanT g b.
Proof.
  intros g a b E (N & V & T). split; auto. split.
  - apply (vel_ext g (ang a)); auto. intros k Hk. unfold ang. apply E. lia.
  - intros i Hi. eapply der_eq; [|apply T; auto]. rewrite E by lia. f_equal. apply mv_ext. intros k Hk. unfold ang. apply E. lia.
Qed.
Lemma tT_right : forall g l P, rigid P -> tanT g l -> tanT (fun h => mmul 4 (g h) P) l.
Proof.
  intros g l P RP T. apply (tT_ext _ (fun i => ksum 6 (fun k => boxTimes (g 0) i k * 0) + ksum 6 (fun k => mid i k * l k))).
  - intros k Hk. rewrite (sum_id 6 k l Hk). rewrite (ksum_ext 6 _ (fun _ => 0)) by (intros; ring). change (@ksum R RRing 6 (fun _ => k0) + l k = l k). rewrite ksum_zero by auto. cbn. ring.
  - apply (tT_mul g (fun _ => P) l (fun _ => 0)); auto. apply tT_const; auto.
Qed.

(* the value and Jacobians of the error vector as functions of the state *)
Definition tr_value (X : kinematics) (t : tr) (s : state) : res (vec R) := do r <- tr_evaluateError X t s; Ok (snd (fst r)).

Section Tr.
  Variables (X : kinematics) (par_dom : mat R -> Prop) (kinds : nat -> kind) (s : state) (al : nat).
  Hypothesis KO : kinematics_ok X par_dom.
  Hypothesis SO : state_ok kinds s.
  Hypothesis Ha : (0 < al)%nat.

  Lemma tr_tan : forall P g l, rigid P -> tanT g l -> par_dom (mmul 4 (g 0) P) -> tanV 6 (fun h => tr_vector X (mmul 4 (g h) P)) (fun i => ksum 6 (fun k => tr_J X (mmul 4 (g 0) P) i k * l k)).
  Proof.
    intros P g l RP T PD i Hi. assert (T2 := tT_right g l P RP T). unfold tr_vector. destruct (Nat.ltb_spec i 3) as [L|L].
    - eapply der_eq; [|apply (tV_trans _ _ T2 i L)]. apply ksum_ext. intros k Hk. unfold tr_J. destruct (Nat.ltb_spec i 3); [|lia]. reflexivity.
    - assert (i - 3 < 3)%nat by lia. destruct (tR_ofT _ _ T2) as (N1 & V1). destruct KO as (_ & _ & _ & _ & _ & _ & _ & _ & KP & _).
      eapply der_eq; [|apply (KP (fun h => mmul 4 (g h) P) _ (i - 3)%nat N1 PD V1); auto]. unfold mvmul. rewrite ks6. rewrite ks3. unfold tr_J. destruct (Nat.ltb_spec i 3); [lia|]. rewrite !ks6. unfold rot_part, delta. cbn. ring.
  Qed.

  Lemma tr_good : forall t, txwf kinds (tr_T t) -> txdom X par_dom (tr_T t) s -> rigid (tr_prior_inv t) -> (forall T, txval X (tr_T t) s = Ok T -> par_dom (mmul 4 T (tr_prior_inv t))) ->
    exists t' e chi ops D, tr_evaluateError X t s = Ok (t', e, chi) /\ tr_calls X t' s = Ok ops /\
      good X kinds s (txwidth (tr_T t)) (tanV 6) 6 (S (txdepth (tr_T t))) (txdvs (tr_T t)) (tr_value X t) (tr_calls X t' s) e ops D.
  Proof.
    intros t W Dm RP PD. destruct (proj1 (proj2 (proj2 (proj2 (proj2 (main X par_dom kinds s (txwidth (tr_T t)) KO SO (proj1 (proj2 (proj2 (proj2 (proj2 widths)))) (tr_T t))))))) (tr_T t) W Dm (le_n _)) as (T & oa & D & G).
    assert (G' := G). destruct G' as (E & J & _). set (E0 := mmul 4 T (tr_prior_inv t)).
    exists (mkTr (tr_T t) (tr_prior_inv t) (tr_invR t) (Some E0)), (tr_vector X E0), (vdot 6 (tr_vector X E0) (mvmul 6 (tr_invR t) (tr_vector X E0))), (scope (CApply (mkD 6 6 (tr_J X E0))) oa), (fun d => mmul 6 (tr_J X E0) (D d)).
    split; [unfold tr_evaluateError; rewrite E; reflexivity|]. assert (EC : tr_calls X (mkTr (tr_T t) (tr_prior_inv t) (tr_invR t) (Some E0)) s = Ok (scope (CApply (mkD 6 6 (tr_J X E0))) oa)) by (unfold tr_calls; cbn [tr_E tr_T]; rewrite J; reflexivity).
    split; [exact EC|].
    eapply (good_1 X par_dom kinds s (txwidth (tr_T t)) KO _ _ (tanV 6) tanT 6 6 _ _ _ _ _ _ _ _ T oa D (fun T => Ok (tr_vector X (mmul 4 T (tr_prior_inv t)))) _ _ (tr_J X E0)); [exact G|apply step_M; apply (proj1 (proj2 (proj2 (proj2 (proj2 widths)))))| |reflexivity|exact EC|lia|auto|].
    - intros s' x Ex. unfold tr_value, tr_evaluateError. rewrite Ex. reflexivity.
    - intros g l Z TT. apply (total_tan _ (tanV 6) (fun h => tr_vector X (mmul 4 (g h) (tr_prior_inv t)))). unfold E0. rewrite <- Z. apply tr_tan; auto. rewrite Z. apply PD; auto.
  Qed.

  Lemma tr_right : forall t, txwf kinds (tr_T t) -> txdom X par_dom (tr_T t) s -> rigid (tr_prior_inv t) -> (forall T, txval X (tr_T t) s = Ok T -> par_dom (mmul 4 T (tr_prior_inv t))) ->
    stack_room 6 al (txwidth (tr_T t)) (S (txdepth (tr_T t))) -> wf_dvs (txdvs (tr_T t)) ->
    exists t' e chi ops c, tr_evaluateError X t s = Ok (t', e, chi) /\ tr_calls X t' s = Ok ops /\ jc_run _ sp_addJ al (sp_init 6) ops = Ok c /\
      forall d i j, In d (txdvs (tr_T t)) -> dv_active d = true -> (i < 6)%nat -> (j < dv_dim d)%nat ->
        gpartial X kinds (fun s => do r <- tr_evaluateError X t s; Ok (snd (fst r) i)) s d j (jacobian_entry (jc_store c) d i j).
  Proof.
    intros t W Dm RP PD Ro Wd. destruct (tr_good t W Dm RP PD) as (t' & e & chi & ops & D & E1 & E2 & G).
    destruct (good_container X kinds s al Ha _ _ _ _ _ _ _ _ _ _ _ G eq_refl Ro Wd) as (c & Er & En). exists t', e, chi, ops, c. split; auto. split; auto. split; auto. intros d i j Hd Ad Hi Hj. rewrite En by auto.
    destruct G as (_ & _ & _ & _ & P). destruct (P d j (proj1 (proj2 (proj2 (proj2 (proj2 (dvs_ok kinds))))) (tr_T t) W d Hd) Hj) as (g & Cu & Tg). apply (tan_partial _ _ _ _ _ _ (fun h => g h i)); [|apply Tg; auto].
    eapply near_mono; [|exact Cu]. intros h H. cbn beta in *. unfold tr_value in H. destruct (tr_evaluateError X t (gp X kinds s d j h)) as [r| |]; try discriminate. cbn [bind] in *. injection H as H. rewrite H. reflexivity.
  Qed.
End Tr.

(** ** The error vanishes at the prior and nowhere else *)
Lemma m4_assoc : forall A B C i j, mmul 4 (mmul 4 A B) C i j = mmul 4 A (mmul 4 B C) i j.
Proof. intros. unfold mmul. rewrite !ks4. cbn. ring. Qed.
Lemma m4_id_r : forall A B i j, meq 4 4 B mid -> (j < 4)%nat -> mmul 4 A B i j = A i j.
Proof. intros A B i j H Hj. unfold mmul. rewrite ks4. rewrite !H by lia. idx j; unfold mid, delta; cbn; ring. Qed.
Lemma m4_id_l : forall A B i j, meq 4 4 A mid -> (i < 4)%nat -> mmul 4 A B i j = B i j.
Proof. intros A B i j H Hi. unfold mmul. rewrite ks4. rewrite !H by lia. idx i; unfold mid, delta; cbn; ring. Qed.
Lemma m4_congr_l : forall A A' B i j, (forall k, (k < 4)%nat -> A i k = A' i k) -> mmul 4 A B i j = mmul 4 A' B i j.
Proof. intros A A' B i j H. unfold mmul. rewrite !ks4. rewrite !H by lia. reflexivity. Qed.

Lemma tr_zero : forall X P Q T, angle_faithful X -> rigid T -> rigid P -> rigid Q -> inverse_of P Q -> ((forall i, (i < 6)%nat -> tr_vector X (mmul 4 T Q) i = 0) <-> meq 4 4 T P).
Proof.
  intros X P Q T AF RT RP RQ (I1 & I2). assert (RE := rigid_mul T Q RT RQ). split.
  - intros Z. assert (EI : meq 4 4 (mmul 4 T Q) mid).
    { assert (R3 : meq 3 3 (mmul 4 T Q) mid). { apply AF; [apply RE|]. intros i Hi. specialize (Z (3 + i)%nat ltac:(lia)). unfold tr_vector in Z. destruct (Nat.ltb_spec (3 + i) 3); [lia|]. replace (3 + i - 3)%nat with i in Z by lia. exact Z. }
      intros i j Hi Hj. destruct (Nat.ltb_spec i 3) as [Li|Li].
      - destruct (Nat.ltb_spec j 3) as [Lj|Lj]; [apply R3; auto|]. assert (j = 3%nat) by lia. subst j. specialize (Z i ltac:(lia)). unfold tr_vector in Z. destruct (Nat.ltb_spec i 3); [|lia]. unfold trans_part in Z. rewrite Z. unfold mid, delta. destruct (Nat.eqb_spec i 3); [lia|reflexivity].
      - assert (i = 3%nat) by lia. subst i. destruct RE as (_ & R1 & R2). destruct (Nat.ltb_spec j 3) as [Lj|Lj]; [rewrite R1 by auto; unfold mid, delta; destruct (Nat.eqb_spec 3 j); [lia|reflexivity]|].
        assert (j = 3%nat) by lia. subst j. rewrite R2. reflexivity. }
    intros i j Hi Hj. rewrite <- (m4_id_r T (mmul 4 Q P) i j I2 Hj). rewrite <- m4_assoc. apply m4_id_l; auto.
  - intros Eq i Hi. assert (EI : meq 4 4 (mmul 4 T Q) mid). { intros a b Ha Hb. rewrite (m4_congr_l T P Q a b); [apply I1; auto|]. intros k Hk. apply Eq; auto. }
    unfold tr_vector. destruct (Nat.ltb_spec i 3) as [L|L].
    + unfold trans_part. rewrite EI by lia. unfold mid, delta. destruct (Nat.eqb_spec i 3); [lia|reflexivity].
    + apply (proj2 (AF (rot_part (mmul 4 T Q)) (proj1 RE))); [|lia]. intros a b Ha Hb. apply EI; lia.
Qed.

(* weights *)
Lemma tr_weights : forall X T Q wR wT s t' e chi, tr_evaluateError X (tr_new_weights T Q wR wT) s = Ok (t', e, chi) -> chi = wT * vdot 3 e e + wR * vdot 3 (fun i => e (3 + i)%nat) (fun i => e (3 + i)%nat).
Proof.
  intros X T Q wR wT s t' e chi H. unfold tr_evaluateError in H. cbn [tr_T tr_new_weights tr_prior_inv tr_invR] in H. destruct (txval X T s) as [M| |]; try discriminate. cbn [bind] in H. injection H as _ He Hc. rewrite He in Hc. rewrite <- Hc.
  unfold vdot, mvmul. rewrite !ks3. rewrite ks6. rewrite !ks6. cbn. ring.
Qed.

(** ** Counterexamples and examples *)
Definition tA : dvr := mkDv 7%nat true 0%Z 0%Z 1%nat 1.
Definition tB : dvr := mkDv 8%nat true 1%Z 1%Z 1%nat 1.
Definition toy_s2 (a b : R) : state := fun id _ => match id with 7%nat => a | 8%nat => b | _ => 0 end.
Ltac wf2 := split; [split; [|split]|]; cbn; intros; repeat match goal with H : _ \/ _ |- _ => destruct H | H : False |- _ => destruct H end; subst; cbn in *; try discriminate; try lia; auto.
Lemma toy_scalars1 : scalars [tA]. Proof. wf2. Qed.
Lemma toy_scalars2 : scalars [tA; tB]. Proof. wf2. Qed.
Lemma toy_scalars3 : scalars [tA; tB; tA]. Proof. wf2. Qed.

Lemma abs_kink : forall l, ~ derivable_pt_lim Rabs 0 l.
Proof.
  intros l D. destruct (D (1/2) ltac:(lra)) as (d & H). assert (Hd := cond_pos d). assert (P := H (d / 2) ltac:(lra)). assert (N := H (- (d / 2)) ltac:(lra)).
  rewrite Rabs_R0, !Rplus_0_l, !Rminus_0_r in *. rewrite (Rabs_Ropp (d / 2)) in *. rewrite (Rabs_pos_eq (d / 2)) in * by lra.
  assert (Q1 : d / 2 / (d / 2) = 1) by (field; lra). assert (Q2 : d / 2 / - (d / 2) = -1) by (field; lra). rewrite Q1 in P by (lra). rewrite Q2 in N.
  assert (Z : d / 2 < d) by lra. specialize (P Z). specialize (N Z). apply Rabs_lt_iff in P. apply Rabs_lt_iff in N. lra.
Qed.

Lemma l1_kink : ~ (forall al dvs beta s, (0 < al)%nat -> (N.of_nat (1 + al) < 4294967296)%N -> scalars dvs -> 0 < beta ->
  jacobians_right al dvs (l1_updateRawError (l1_new dvs beta) (Some dvs)) (l1_evaluateRawJacobians (l1_new dvs beta) (Some dvs)) s).
Proof.
  intros H. destruct (H 1%nat [tA] 1 (toy_s2 0 0) ltac:(lia) ltac:(reflexivity) toy_scalars1 Rlt_0_1) as (v & ops & c & _ & _ & _ & P). specialize (P tA (or_introl eq_refl) eq_refl). set (l := jacobian_entry _ _ _ _) in P.
  destruct P as (g & d & Hd & E & D). apply (abs_kink l). apply (der_near g Rabs 0 l d); auto. intros y Hy. specialize (E y Hy). cbn in E. injection E as E. rewrite <- E. unfold l1_sum. cbn. rewrite !Rplus_0_l, Rmult_1_l. reflexivity.
Qed.

Lemma l1_reported_ok : forall dvs beta s s', (forall d, In d (l1_getDesignVariables (l1_new dvs beta)) -> xval d s = xval d s') -> l1_updateRawError (l1_new dvs beta) (Some dvs) s = l1_updateRawError (l1_new dvs beta) (Some dvs) s'.
Proof. intros dvs beta s s' H. cbn. do 2 f_equal. rewrite !l1_sum_dsum. apply dsum_ext. intros d Hd. rewrite H; auto. Qed.
Lemma l1_reference : ~ (forall dvs dvs' beta s s', (forall d, In d (l1_getDesignVariables (l1_new dvs beta)) -> xval d s = xval d s') -> l1_updateRawError (l1_new dvs beta) (Some dvs') s = l1_updateRawError (l1_new dvs beta) (Some dvs') s').
Proof.
  intros H. specialize (H [tA] [tA; tB] 1 (toy_s2 0 0) (toy_s2 0 1)). assert (E : forall d, In d [tA] -> xval d (toy_s2 0 0) = xval d (toy_s2 0 1)) by (intros d [<-|[]]; reflexivity). specialize (H E).
  cbn in H. unfold l1_sum, xval, toy_s2 in H. cbn in H. injection H as H. rewrite Rabs_R0, Rabs_R1 in H. lra.
Qed.

(* a rotation with a translation behind it *)
Definition toyQ : mat R := mk_T mid (fun i => if (i =? 0)%nat then 1 else 0).
Definition toyTr (E : option (mat R)) : tr := mkTr (TxR (RxVar gR)) toyQ (fun i j => if (i =? j)%nat then 1 else 0) E.
Definition toy_rot (a : R) : state := fun _ i => axis_rot 2 a (i / 3)%nat (i mod 3)%nat.
Lemma toy_rot_ok : forall a, state_ok toy_kinds (toy_rot a).
Proof. intros a id K. apply (rot_ext (axis_rot 2 a)); [|apply rot_axis; lia]. intros p q Hp Hq. unfold m3, toy_rot. symmetry. apply (m3_rebuild (axis_rot 2 a)); auto. Qed.
Lemma toy_wfR : wf_dvs [gR].
Proof. split; [|split]; cbn; intros; repeat match goal with H : _ \/ _ |- _ => destruct H | H : False |- _ => destruct H end; subst; cbn in *; try discriminate; try lia; auto. Qed.
Lemma toyTr_run : forall E s ops c, tr_calls toy_kin (toyTr (Some E)) s = Ok ops -> jc_run _ sp_addJ 16 (sp_init 6) ops = Ok c -> jacobian_entry (jc_store c) gR 1 2 = crossm (trans_part E) 1%nat 2%nat.
Proof.
  intros E s ops c H Er. cbn in H. injection H as <-.
  assert (C := conM 6 6 6 1 _ _ (tr_J toy_kin E) (le_n 6) (conM 6 3 6 0 _ _ (fun i j => if (i <? 3)%nat then 0 else delta (i - 3)%nat j) ltac:(lia) (conV 6 0 gR))).
  destruct (contributes_entry 6 6 2 _ _ 16 [gR] C ltac:(lia) eq_refl) as (c' & Er' & _ & En).
  - apply stack_room_room. split; [reflexivity|split; reflexivity].
  - exact toy_wfR.
  - intros x Hx. rewrite !ops_scopeM in Hx. exact Hx.
  - assert (Q : Ok c = Ok c') by exact (eq_trans (eq_sym Er) Er'). injection Q as <-. etransitivity; [apply (En gR 1%nat 2%nat); [left; reflexivity|reflexivity|lia|cbn; lia]|]. unfold mmul. rewrite ks6. rewrite !ks3. unfold tr_J, crossm. cbn. ring.
Qed.

Lemma tr_stale : ~ (forall X par_dom kinds s0 s al t t0 e0 chi0, kinematics_ok X par_dom -> state_ok kinds s0 -> state_ok kinds s -> (0 < al)%nat -> txwf kinds (tr_T t) -> txdom X par_dom (tr_T t) s -> rigid (tr_prior_inv t) ->
  (forall T, txval X (tr_T t) s = Ok T -> par_dom (mmul 4 T (tr_prior_inv t))) -> stack_room 6 al (txwidth (tr_T t)) (S (txdepth (tr_T t))) -> wf_dvs (txdvs (tr_T t)) ->
  tr_evaluateError X t s0 = Ok (t0, e0, chi0) ->
  exists ops c, tr_calls X t0 s = Ok ops /\ jc_run _ sp_addJ al (sp_init 6) ops = Ok c /\
    forall d i j, In d (txdvs (tr_T t)) -> dv_active d = true -> (i < 6)%nat -> (j < dv_dim d)%nat ->
      gpartial X kinds (fun s => do r <- tr_evaluateError X t s; Ok (snd (fst r) i)) s d j (jacobian_entry (jc_store c) d i j)).
Proof.
  intros H. set (t := toyTr None). set (s0 := toy_rot 0). set (s := toy_rot (PI / 2)).
  assert (W : txwf toy_kinds (tr_T t)) by (cbn; auto). assert (Dm : txdom toy_kin (fun _ => True) (tr_T t) s) by (cbn; auto). assert (RQ : rigid (tr_prior_inv t)) by (apply rigid_mk, rot_id).
  assert (Ro : stack_room 6 16 (txwidth (tr_T t)) (S (txdepth (tr_T t)))) by (split; [reflexivity|split; reflexivity]). assert (Wd : wf_dvs (txdvs (tr_T t))) by exact toy_wfR.
  destruct (H toy_kin (fun _ => True) toy_kinds s0 s 16%nat t _ _ _ toy_kin_ok (toy_rot_ok 0) (toy_rot_ok (PI / 2)) ltac:(lia) W Dm RQ (fun _ _ => I) Ro Wd eq_refl) as (ops & c & Ec & Er & P).
  destruct (tr_right toy_kin (fun _ => True) toy_kinds s 16%nat toy_kin_ok (toy_rot_ok (PI / 2)) ltac:(lia) t W Dm RQ (fun _ _ => I) Ro Wd) as (t' & e & chi & ops' & c' & Ee & Ec' & Er' & P').
  specialize (P gR 1%nat 2%nat ltac:(cbn; auto) eq_refl ltac:(lia) ltac:(cbn; lia)). specialize (P' gR 1%nat 2%nat ltac:(cbn; auto) eq_refl ltac:(lia) ltac:(cbn; lia)).
  assert (U := rder_unique _ _ _ _ P P'). rewrite (toyTr_run _ s ops c Ec Er) in U. cbn in Ee. injection Ee as <- _ _. rewrite (toyTr_run _ s ops' c' Ec' Er') in U.
  unfold crossm, trans_part, mmul in U. rewrite !ks4 in U. unfold toyQ, mk_T, m3, s0, s, toy_rot, axis_rot in U. cbn in U. rewrite cos_0, cos_PI2 in U. unfold mid, delta in U. cbn in U. lra.
Qed.

(* R2AxisAngle replaced by the squared distance to the identity *)
Definition toy_angle : kinematics := {| rot_update := rot_update toy_kin; hom_update := hom_update toy_kin; hom_jac := hom_jac toy_kin; ypr := ypr toy_kin; rot_params_jac := rot_params_jac toy_kin; inv4 := inv4 toy_kin;
  rot_params := fun C _ => ksum 3 (fun i => ksum 3 (fun j => (C i j - mid i j) * (C i j - mid i j))) |}.
Lemma toy_angle_faithful : angle_faithful toy_angle.
Proof.
  intros C _. split.
  - intros H. specialize (H 0%nat ltac:(lia)). cbn [rot_params toy_angle] in H. rewrite ks3 in H. rewrite !ks3 in H.
    assert (S : forall x, 0 <= x * x) by (intros; apply Rle_0_sqr). 
    assert (Z : forall i j, (i < 3)%nat -> (j < 3)%nat -> (C i j - mid i j) * (C i j - mid i j) = 0).
    { intros i j Hi Hj. set (q := fun i j => (C i j - mid i j) * (C i j - mid i j)) in *.
      assert (Q : forall i j, 0 <= q i j) by (intros; apply S). change (q 0%nat 0%nat + q 0%nat 1%nat + q 0%nat 2%nat + (q 1%nat 0%nat + q 1%nat 1%nat + q 1%nat 2%nat) + (q 2%nat 0%nat + q 2%nat 1%nat + q 2%nat 2%nat) = 0) in H. change (q i j = 0).
      pose proof (Q 0 0)%nat. pose proof (Q 0 1)%nat. pose proof (Q 0 2)%nat. pose proof (Q 1 0)%nat. pose proof (Q 1 1)%nat. pose proof (Q 1 2)%nat. pose proof (Q 2 0)%nat. pose proof (Q 2 1)%nat. pose proof (Q 2 2)%nat.
      idx i; idx j; lra. }
    intros i j Hi Hj. specialize (Z i j Hi Hj). apply Rsqr_0_uniq in Z. lra.
  - intros H i Hi. cbn [rot_params toy_angle]. rewrite ks3. rewrite !ks3. rewrite !H by lia. cbn. ring.
Qed.
Lemma toy_inverse : inverse_of (mk_T mid (fun i => if (i =? 0)%nat then -1 else 0)) toyQ.
Proof. split; intros i j Hi Hj; unfold mmul; rewrite ks4; idx i; idx j; unfold toyQ, mk_T, mid, delta; cbn; ring. Qed.
Lemma toy_tr_hyps : kinematics_ok toy_kin (fun _ => True) /\ state_ok toy_kinds toy_st /\ txwf toy_kinds toy_t /\ txdom toy_kin (fun _ => True) toy_t toy_st /\ rigid toyQ /\ stack_room 6 16 (txwidth toy_t) (S (txdepth toy_t)) /\ wf_dvs (txdvs toy_t) /\ In gR (txdvs toy_t).
Proof. destruct toy_t_hyps as (A & B & C & D & E & F & G). split; auto. split; auto. split; auto. split; auto. split; [apply rigid_mk, rot_id|]. split; [split; [reflexivity|split; reflexivity]|]. auto. Qed.
