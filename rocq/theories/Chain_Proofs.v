(** * Kinematic chains (proofs only) *)
From Coq Require Import Arith Lia List ZArith Bool Reals Lra FunctionalExtensionality.
From Verif Require Import Lib_Ring Lib_Real Lib_Res MatrixStack_Model DesignVar_Base Jacobian_Model Scalar_Model Geo_Model Geo_Spec Geo_Algebra Empty_Model Empty_Proofs Chain_Model Chain_Spec.
Import ListNotations.
Local Open Scope R_scope.

(** ** The getters as one recursion *)
Lemma e_add_l : forall a, e_add HNull a = a.
Proof. intros [| |]; reflexivity. Qed.
Lemma e_add_r : forall a, e_add a HNull = a.
Proof. intros [| |]; reflexivity. Qed.
Lemma r_apply_l : forall a, r_apply 0 HNull a = a.
Proof. intros [| |]; reflexivity. Qed.
Lemma cross_l : forall a, e_cross HNull a = HNull.
Proof. intros [| |]; reflexivity. Qed.
Lemma getR_cons : forall f c, getR (f :: c) = r_mul 0 (getR c) (fR f).
Proof. intros f [|g c]; [|reflexivity]. cbn [getR]. destruct (fR f); reflexivity. Qed.
Lemma getOmega_cons : forall f c, getOmega (f :: c) = e_add (getOmega c) (r_apply 0 (getR c) (fomega f)).
Proof. intros f [|g c]; [|reflexivity]. cbn [getR getOmega]. rewrite r_apply_l, e_add_l. auto. Qed.
Lemma getAlpha_cons : forall f c, getAlpha (f :: c) = e_add (e_add (getAlpha c) (e_cross (getOmega c) (r_apply 0 (getR c) (fomega f)))) (r_apply 0 (getR c) (falpha f)).
Proof. intros f [|g c]; [|reflexivity]. cbn [getR getOmega getAlpha]. rewrite !r_apply_l, cross_l, !e_add_l. auto. Qed.
Lemma getP_cons : forall f c, getP (f :: c) = e_add (getP c) (r_apply 0 (getR c) (fp f)).
Proof. intros f [|g c]; [|reflexivity]. cbn [getR getP]. rewrite r_apply_l, e_add_l. auto. Qed.
Lemma getV_cons : forall f c, getV (f :: c) = e_add (e_add (getV c) (r_apply 0 (getR c) (fv f))) (e_cross (getOmega c) (r_apply 0 (getR c) (fp f))).
Proof. intros f [|g c]; [|reflexivity]. cbn [getR getOmega getV]. rewrite !r_apply_l, cross_l, e_add_l, e_add_r. auto. Qed.
Lemma getA_cons : forall f c, getA (f :: c) = e_add (e_add (e_add (e_add (getA c) (r_apply 0 (getR c) (fa f))) (e_cross (getOmega c) (r_apply 0 (getR c) (fv f)))) (e_cross (getAlpha c) (r_apply 0 (getR c) (fp f)))) (e_cross (getOmega c) (e_cross (getOmega c) (r_apply 0 (getR c) (fp f)))).
Proof. intros f [|g c]; [|reflexivity]. cbn [getR getOmega getAlpha getA]. rewrite !r_apply_l, !cross_l, e_add_l, !e_add_r. auto. Qed.

(** ** Values *)
Section V.
  Variables (X : kinematics) (s : R -> state).
  Lemma v_add : forall a b f g, value X s a f -> value X s b g -> value X s (e_add a b) (fun t i => f t i + g t i).
  Proof. intros a b f g Ha Hb t. destruct (Ha t) as (x & Ea & Qa), (Hb t) as (y & Eb & Qb). eexists. split; [apply add_val; eauto|]. intros i Hi. rewrite Qa, Qb; auto. Qed.
  Lemma mv_ext2 : forall (A B : mat R) x y i, (forall k, (k < 3)%nat -> A i k = B i k) -> veq 3 x y -> mvmul 3 A x i = mvmul 3 B y i.
  Proof. intros A B x y i HA H. unfold mvmul. apply ksum_ext. intros k Hk. rewrite HA, H; auto. Qed.
  Lemma v_cross : forall a b f g, value X s a f -> value X s b g -> value X s (e_cross a b) (fun t => mvmul 3 (crossm (f t)) (g t)).
  Proof. intros a b f g Ha Hb t. destruct (Ha t) as (x & Ea & Qa), (Hb t) as (y & Eb & Qb). eexists. split; [apply cross_val; eauto|]. intros i Hi. apply mv_ext2; auto. intros k Hk. apply crossm_ext. auto. Qed.
  Lemma v_rot : forall r a C f, rvalue X s r C -> value X s a f -> value X s (r_apply 0 r a) (fun t => mvmul 3 (C t) (f t)).
  Proof. intros r a C f Hr Ha t. destruct (Hr t) as (D & Er & Qr), (Ha t) as (x & Ea & Qa). destruct (rapply_val X (s t) 0%nat r a D x Er Ea) as (y & Ey & Qy). exists y. split; auto. intros i Hi. rewrite Qy by auto. apply mv_ext2; auto. Qed.
  Lemma v_mul : forall a b A B, rvalue X s a A -> rvalue X s b B -> rvalue X s (r_mul 0 a b) (fun t => mmul 3 (A t) (B t)).
  Proof.
    intros a b A B Ha Hb t. destruct (Ha t) as (D & Ea & Qa), (Hb t) as (E & Eb & Qb). destruct (rmul_val X (s t) 0%nat a b D E Ea Eb) as (C & EC & QC). exists C. split; auto. intros i j Hi Hj. rewrite QC by auto.
    unfold mmul. apply ksum_ext. intros k Hk. rewrite Qa, Qb; auto.
  Qed.
  Lemma v_ok : forall a f, (forall t, heval X a (s t) = Ok (f t)) -> value X s a f.
  Proof. intros a f H t. exists (f t). split; auto. intros i _. auto. Qed.
  Lemma r_ok : forall a f, (forall t, hrot X a (s t) = Ok (f t)) -> rvalue X s a f.
  Proof. intros a f H t. exists (f t). split; auto. intros i j _ _. auto. Qed.

  (* the code's formulas for v, alpha and a, on values *)
  Fixpoint cv (ms : list motion) (t : R) : vec R := match ms with [] => fun _ => 0 | m :: ps => fun i => cv ps t i + mvmul 3 (poseR ps t) (mv m t) i + mvmul 3 (crossm (poseomega ps t)) (mvmul 3 (poseR ps t) (mp m t)) i end.
  Fixpoint calpha (ms : list motion) (t : R) : vec R := match ms with [] => fun _ => 0 | m :: ps => fun i => calpha ps t i + mvmul 3 (crossm (poseomega ps t)) (mvmul 3 (poseR ps t) (momega m t)) i + mvmul 3 (poseR ps t) (malpha m t) i end.
  Fixpoint ca (ms : list motion) (t : R) : vec R := match ms with [] => fun _ => 0 | m :: ps => fun i => ca ps t i + mvmul 3 (poseR ps t) (ma m t) i + mvmul 3 (crossm (poseomega ps t)) (mvmul 3 (poseR ps t) (mv m t)) i
    + mvmul 3 (crossm (calpha ps t)) (mvmul 3 (poseR ps t) (mp m t)) i + mvmul 3 (crossm (poseomega ps t)) (mvmul 3 (crossm (poseomega ps t)) (mvmul 3 (poseR ps t) (mp m t))) i end.
  Lemma vals : forall c ms, Forall2 (follows X s) c ms ->
    rvalue X s (getR c) (poseR ms) /\ value X s (getP c) (posep ms) /\ value X s (getOmega c) (poseomega ms) /\ value X s (getV c) (cv ms) /\ value X s (getAlpha c) (calpha ms) /\ value X s (getA c) (ca ms).
  Proof.
    induction 1 as [|f m c ms F _ (HR & HP & HO & HV & HA & HC)].
    - split; [apply r_ok; reflexivity|]. repeat split; apply v_ok; reflexivity.
    - assert (FR : rvalue X s (fR f) (mR m)) by (apply r_ok; intros t; apply F).
      assert (FP : value X s (fp f) (mp m)) by (apply v_ok; intros t; apply F). assert (FO : value X s (fomega f) (momega m)) by (apply v_ok; intros t; apply F).
      assert (FV : value X s (fv f) (mv m)) by (apply v_ok; intros t; apply F). assert (FL : value X s (falpha f) (malpha m)) by (apply v_ok; intros t; apply F).
      assert (FA : value X s (fa f) (ma m)) by (apply v_ok; intros t; apply F). clear F.
      pose proof (v_rot _ _ _ _ HR FP) as RP. pose proof (v_rot _ _ _ _ HR FO) as RO. pose proof (v_rot _ _ _ _ HR FV) as RV. pose proof (v_rot _ _ _ _ HR FL) as RL. pose proof (v_rot _ _ _ _ HR FA) as RA.
      rewrite getR_cons, getP_cons, getOmega_cons, getV_cons, getAlpha_cons, getA_cons. split; [exact (v_mul _ _ _ _ HR FR)|].
      split; [exact (v_add _ _ _ _ HP RP)|]. split; [exact (v_add _ _ _ _ HO RO)|].
      split; [exact (v_add _ _ _ _ (v_add _ _ _ _ HV RV) (v_cross _ _ _ _ HO RP))|].
      split; [exact (v_add _ _ _ _ (v_add _ _ _ _ HA (v_cross _ _ _ _ HO RO)) RL)|].
      exact (v_add _ _ _ _ (v_add _ _ _ _ (v_add _ _ _ _ (v_add _ _ _ _ HC RA) (v_cross _ _ _ _ HO RV)) (v_cross _ _ _ _ HA RP)) (v_cross _ _ _ _ HO (v_cross _ _ _ _ HO RP))).
  Qed.
End V.

(** ** Derivatives *)
Lemma d_mv : forall (A : R -> mat R) (x : R -> vec R) (A' : mat R) x' t i, (forall k, (k < 3)%nat -> derivable_pt_lim (fun u => A u i k) t (A' i k)) -> (forall k, (k < 3)%nat -> derivable_pt_lim (fun u => x u k) t (x' k)) ->
  derivable_pt_lim (fun u => mvmul 3 (A u) (x u) i) t (mvmul 3 A' (x t) i + mvmul 3 (A t) x' i).
Proof.
  intros A x A' x' t i HA Hx. eapply der_eq; [|apply (der_ksum 3 (fun k u => A u i k * x u k) (fun k => A' i k * x t k + A t i k * x' k)); intros k Hk; apply (der_mul (fun u => A u i k) (fun u => x u k)); auto].
  unfold mvmul. rewrite !ks3. cbn. ring.
Qed.
Lemma d_crossm : forall (x : R -> vec R) x' t i k, (forall k, (k < 3)%nat -> derivable_pt_lim (fun u => x u k) t (x' k)) -> derivable_pt_lim (fun u => crossm (x u) i k) t (crossm x' i k).
Proof.
  intros x x' t i k H. destruct i as [|[|[|i]]], k as [|[|[|k]]]; cbn [crossm]; try apply der_const; try (apply H; lia); match goal with |- derivable_pt_lim (fun u => - x u ?n) _ _ => apply (der_opp (fun u => x u n)); apply H; lia end.
Qed.
Lemma vel_mv : forall C w x x', turns C w -> velocity x x' -> velocity (fun t => mvmul 3 (C t) (x t)) (fun t i => mvmul 3 (crossm (w t)) (mvmul 3 (C t) (x t)) i + mvmul 3 (C t) (x' t) i).
Proof. intros C w x x' (HR & HC) Hx t i Hi. eapply der_eq; [|apply (d_mv C x (mmul 3 (crossm (w t)) (C t)) (x' t)); intros; [apply HC|apply Hx]; auto]. rewrite mv_mul. auto. Qed.
Lemma vel_cross : forall x x' y y', velocity x x' -> velocity y y' -> velocity (fun t => mvmul 3 (crossm (x t)) (y t)) (fun t i => mvmul 3 (crossm (x' t)) (y t) i + mvmul 3 (crossm (x t)) (y' t) i).
Proof. intros x x' y y' Hx Hy t i Hi. apply (d_mv (fun u => crossm (x u)) y (crossm (x' t)) (y' t)); intros; [apply d_crossm; intros; apply Hx; auto|apply Hy; auto]. Qed.
Lemma vel_add : forall x x' y y', velocity x x' -> velocity y y' -> velocity (fun t i => x t i + y t i) (fun t i => x' t i + y' t i).
Proof. intros x x' y y' Hx Hy t i Hi. apply (der_plus (fun u => x u i) (fun u => y u i)); auto. Qed.
Lemma vel_eq : forall x x' y', (forall t i, (i < 3)%nat -> x' t i = y' t i) -> velocity x x' -> velocity x y'.
Proof. intros x x' y' E H t i Hi. rewrite <- E by auto. auto. Qed.
Lemma vel_0 : velocity (fun _ _ => 0) (fun _ _ => 0).
Proof. intros t i _. apply der_const. Qed.

Lemma poseomega_turns : forall ms, Forall proper ms -> turns (poseR ms) (poseomega ms).
Proof.
  induction 1 as [|m ms (_ & _ & (HR & HC) & _) _ IH]; cbn [poseR poseomega].
  - split; [intros; apply rot_id|]. intros t i j _ _. eapply der_eq; [|apply der_const]. unfold mmul. rewrite ks3. destruct i as [|[|[|i]]]; cbn; ring.
  - destruct IH as (IR & IC). split; [intros t; apply rot_mul; auto|]. intros t i j Hi Hj.
    eapply der_eq; [|apply (d_mv (poseR ms) (fun u k => mR m u k j) (mmul 3 (crossm (poseomega ms t)) (poseR ms t)) (fun k => mmul 3 (crossm (momega m t)) (mR m t) k j)); intros; [apply IC|apply HC]; auto].
    assert (E : mmul 3 (poseR ms t) (mmul 3 (crossm (momega m t)) (mR m t)) i j = mmul 3 (crossm (mvmul 3 (poseR ms t) (momega m t))) (mmul 3 (poseR ms t) (mR m t)) i j).
    { rewrite <- !mul_assoc. unfold mmul at 1 3. apply ksum_ext. intros k Hk. rewrite rot_cross_m; auto. }
    transitivity (mmul 3 (mmul 3 (crossm (poseomega ms t)) (poseR ms t)) (mR m t) i j + mmul 3 (poseR ms t) (mmul 3 (crossm (momega m t)) (mR m t)) i j); [reflexivity|].
    rewrite E, mul_assoc. generalize (mmul 3 (poseR ms t) (mR m t)). generalize (mvmul 3 (poseR ms t) (momega m t)). intros w M. unfold mmul. rewrite !ks3. destruct i as [|[|[|i]]]; cbn; ring.
Qed.
Lemma posep_vel : forall ms, Forall proper ms -> velocity (posep ms) (cv ms).
Proof.
  induction 1 as [|m ms P F IH]; [apply vel_0|]. pose proof (poseomega_turns ms F) as T. destruct P as (Hp & _). cbn [posep cv].
  eapply vel_eq; [|apply (vel_add _ _ _ _ IH (vel_mv _ _ _ _ T Hp))]. intros t i Hi. cbn. ring.
Qed.
Lemma poseomega_vel : forall ms, Forall proper ms -> velocity (poseomega ms) (calpha ms).
Proof.
  induction 1 as [|m ms P F IH]; [apply vel_0|]. pose proof (poseomega_turns ms F) as T. destruct P as (_ & _ & _ & Hw). cbn [poseomega calpha].
  eapply vel_eq; [|apply (vel_add _ _ _ _ IH (vel_mv _ _ _ _ T Hw))]. intros t i Hi. cbn. ring.
Qed.
Lemma cv_vel : forall ms, Forall proper ms -> velocity (cv ms) (fun t i => ca ms t i + coriolis ms t i).
Proof.
  induction 1 as [|m ms P F IH]; [eapply vel_eq; [|apply vel_0]; intros; cbn; ring|]. pose proof (poseomega_turns ms F) as T. pose proof (poseomega_vel ms F) as W. destruct P as (Hp & Hv & _). cbn [cv ca coriolis].
  eapply vel_eq; [|apply (vel_add _ _ _ _ (vel_add _ _ _ _ IH (vel_mv _ _ _ _ T Hv)) (vel_cross _ _ _ _ W (vel_mv _ _ _ _ T Hp)))]. intros t i Hi. cbn beta.
  assert (L : forall w x y, mvmul 3 (crossm w) (fun k => x k + y k) i = mvmul 3 (crossm w) x i + mvmul 3 (crossm w) y i) by (intros; unfold mvmul; rewrite !ks3; cbn; ring).
  rewrite (L (poseomega ms t)). ring.
Qed.

(** ** The theorems *)
Section T.
  Variables (X : kinematics) (s : R -> state) (c : list frame) (ms : list motion).
  Hypotheses (F : Forall2 (follows X s) c ms) (P : Forall proper ms).
  Lemma chain_position : value X s (getP c) (posep ms) /\ exists v, value X s (getV c) v /\ velocity (posep ms) v.
  Proof. destruct (vals X s c ms F) as (HR & HP & HO & HV & HA & HC). split; auto. exists (cv ms). split; auto. apply posep_vel; auto. Qed.
  Lemma chain_rotation : rvalue X s (getR c) (poseR ms) /\ exists w al, value X s (getOmega c) w /\ turns (poseR ms) w /\ value X s (getAlpha c) al /\ velocity w al.
  Proof. destruct (vals X s c ms F) as (HR & HP & HO & HV & HA & HC). split; auto. exists (poseomega ms), (calpha ms). split; auto. split; [apply poseomega_turns; auto|]. split; auto. apply poseomega_vel; auto. Qed.
  Lemma chain_acceleration : exists v a, value X s (getV c) v /\ value X s (getA c) a /\ velocity v (fun t i => a t i + coriolis ms t i).
  Proof. destruct (vals X s c ms F) as (HR & HP & HO & HV & HA & HC). exists (cv ms), (ca ms). split; auto. split; auto. apply cv_vel; auto. Qed.
  Lemma chain_acceleration_0 : (forall t i, (i < 3)%nat -> coriolis ms t i = 0) -> exists v a, value X s (getV c) v /\ value X s (getA c) a /\ velocity v a.
  Proof. intros Z. destruct chain_acceleration as (v & a & Hv & Ha & H). exists v, a. split; auto. split; auto. eapply vel_eq; [|exact H]. intros t i Hi. cbn. rewrite Z by auto. ring. Qed.
End T.
