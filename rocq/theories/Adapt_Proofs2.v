From Coq Require Import Arith Lia List ZArith NArith Bool Reals Lra FunctionalExtensionality.
From Verif Require Import Lib_Ring Lib_Real Lib_Res MatrixStack_Model MatrixStack_Spec DesignVar_Base Jacobian_Model Jacobian_Spec Expr_Base Scalar_Model Scalar_Spec Scalar_Calc Scalar_Proofs Scalar_Proofs2 Geo_Model Geo_Spec Geo_Algebra Geo_Tangent Geo_Proofs Geo_Main Geo_Proofs2 Quat_Model Quat_Spec Quat_Proofs Adapt_Model Adapt_Spec.
Import ListNotations.
Local Open Scope R_scope.

Section Cam.
  Variables (m : camera) (v : camdv) (ph y : vec R) (s : state) (al : nat).
  Hypothesis CO : camera_ok m v ph s.
  Hypothesis CW : cam_wf v.
  Hypothesis Ha : (0 < al)%nat.
  Hypothesis Wd : wf_dvs (cam_dvs v).

  Lemma moved_p : forall j h, cam_at (cam_kp m) v ph (moved s (c_p v) j h) = cam_kp m ph (bump (s (dv_id (c_p v))) j h) (s (dv_id (c_d v))) (s (dv_id (c_s v))).
  Proof. intros. destruct CW as (W1 & W2 & W3). unfold cam_at, moved. rewrite Nat.eqb_refl, (proj2 (Nat.eqb_neq _ _) (not_eq_sym W1)), (proj2 (Nat.eqb_neq _ _) (not_eq_sym W2)). auto. Qed.
  Lemma moved_d : forall j h, cam_at (cam_kp m) v ph (moved s (c_d v) j h) = cam_kp m ph (s (dv_id (c_p v))) (bump (s (dv_id (c_d v))) j h) (s (dv_id (c_s v))).
  Proof. intros. destruct CW as (W1 & W2 & W3). unfold cam_at, moved. rewrite Nat.eqb_refl, (proj2 (Nat.eqb_neq _ _) W1), (proj2 (Nat.eqb_neq _ _) (not_eq_sym W3)). auto. Qed.
  Lemma moved_s : forall j h, cam_at (cam_kp m) v ph (moved s (c_s v) j h) = cam_kp m ph (s (dv_id (c_p v))) (s (dv_id (c_d v))) (bump (s (dv_id (c_s v))) j h).
  Proof. intros. destruct CW as (W1 & W2 & W3). unfold cam_at, moved. rewrite Nat.eqb_refl, (proj2 (Nat.eqb_neq _ _) W2), (proj2 (Nat.eqb_neq _ _) W3). auto. Qed.
  Definition camJ (d : dvr) : mat R := if (dv_id d =? dv_id (c_p v))%nat then cam_at (cam_Jp m) v ph s else if (dv_id d =? dv_id (c_d v))%nat then cam_at (cam_Jd m) v ph s else cam_at (cam_Js m) v ph s.
  Lemma kp_der : forall d i j, In d (cam_dvs v) -> (i < cam_k m)%nat -> (j < dv_dim d)%nat -> derivable_pt_lim (fun h => keypoint m v ph (moved s d j h) i) 0 (camJ d i j).
  Proof.
    intros d i j Hd Hi Hj. destruct CW as (W1 & W2 & W3). destruct (CO i Hi) as (Op & Od & Os). unfold keypoint, camJ. destruct Hd as [E|[E|[E|[]]]]; subst d.
    - rewrite Nat.eqb_refl. apply (der_ext (fun h => cam_kp m ph (bump (s (dv_id (c_p v))) j h) (s (dv_id (c_d v))) (s (dv_id (c_s v))) i)); [|apply Op; auto]. intros h. rewrite moved_p. auto.
    - rewrite (proj2 (Nat.eqb_neq _ _) (not_eq_sym W1)), Nat.eqb_refl. apply (der_ext (fun h => cam_kp m ph (s (dv_id (c_p v))) (bump (s (dv_id (c_d v))) j h) (s (dv_id (c_s v))) i)); [|apply Od; auto]. intros h. rewrite moved_d. auto.
    - rewrite (proj2 (Nat.eqb_neq _ _) (not_eq_sym W2)), (proj2 (Nat.eqb_neq _ _) (not_eq_sym W3)). apply (der_ext (fun h => cam_kp m ph (s (dv_id (c_p v))) (s (dv_id (c_d v))) (bump (s (dv_id (c_s v))) j h) i)); [|apply Os; auto]. intros h. rewrite moved_s. auto.
  Qed.
  Lemma res_der : forall d i j, In d (cam_dvs v) -> (i < cam_k m)%nat -> (j < dv_dim d)%nat -> derivable_pt_lim (fun h => residual m v ph y (moved s d j h) i) 0 (- camJ d i j).
  Proof.
    intros d i j Hd Hi Hj. unfold residual. replace (- camJ d i j) with (0 - camJ d i j) by ring. apply (derivable_pt_lim_minus (fun _ => y i)); [apply derivable_pt_lim_const|apply kp_der; auto].
  Qed.
  Lemma chain_der : forall (A : mat R) d i j, In d (cam_dvs v) -> (j < dv_dim d)%nat ->
    derivable_pt_lim (fun h => mvmul (cam_k m) A (residual m v ph y (moved s d j h)) i) 0 (mmul (cam_k m) (fun i j => - A i j) (camJ d) i j).
  Proof.
    intros A d i j Hd Hj. unfold mvmul, mmul. apply (der_ksum (cam_k m) (fun k h => A i k * residual m v ph y (moved s d j h) k)). intros k Hk.
    replace (kmul (- A i k) (camJ d k j)) with (A i k * (- camJ d k j)) by (cbn; ring). apply (derivable_pt_lim_scal (fun h => residual m v ph y (moved s d j h) k)). apply res_der; auto.
  Qed.
  Lemma room0 : forall r, stack_room r al 0 0.
  Proof. intros r. unfold stack_room. rewrite Nat.mul_0_r. cbn. repeat split; reflexivity. Qed.
  Lemma one_add : forall r d0 J, contributes r 0 0 [CAdd d0 (mkD r (dv_dim d0) J)] (fun d i j => if (dv_id d0 =? dv_id d)%nat then J i j else 0).
  Proof. intros. exact (@con_add R RRing r 0 0 d0 J). Qed.

  Lemma cam_chain_main : forall r A, (N.of_nat r < 65536)%N ->
    exists c, jc_run _ sp_addJ al (sp_init r) (cam_jac_chain m v r A ph s) = Ok c /\
      forall d i j, In d (cam_dvs v) -> dv_active d = true -> (i < r)%nat -> (j < dv_dim d)%nat ->
        derivable_pt_lim (fun h => mvmul (cam_k m) A (residual m v ph y (moved s d j h)) i) 0 (jacobian_entry (jc_store c) d i j).
  Proof.
    intros r A Hr. set (NA := fun i j => - A i j).
    assert (C := conA r 0 0 _ _ _ _ (one_add r (c_p v) (mmul (cam_k m) NA (cam_at (cam_Jp m) v ph s)))
       (conA r 0 0 _ _ _ _ (one_add r (c_d v) (mmul (cam_k m) NA (cam_at (cam_Jd m) v ph s))) (one_add r (c_s v) (mmul (cam_k m) NA (cam_at (cam_Js m) v ph s))))).
    destruct (contributes_entry r 0 0 _ _ al (cam_dvs v) C Ha Hr (stack_room_room _ _ _ _ (room0 r)) Wd ltac:(intros x Hx; exact Hx)) as (c & Er & _ & En).
    exists c. split; [exact Er|]. intros d i j Hd Ad Hi Hj. eapply eq_ind; [apply chain_der; auto|]. symmetry. etransitivity; [apply En; auto|]. cbn beta. unfold camJ.
    destruct CW as (W1 & W2 & W3). destruct Hd as [E|[E|[E|[]]]]; subst d; rewrite Nat.eqb_refl, ?(proj2 (Nat.eqb_neq _ _) W1), ?(proj2 (Nat.eqb_neq _ _) W2), ?(proj2 (Nat.eqb_neq _ _) W3),
      ?(proj2 (Nat.eqb_neq _ _) (not_eq_sym W1)), ?(proj2 (Nat.eqb_neq _ _) (not_eq_sym W2)), ?(proj2 (Nat.eqb_neq _ _) (not_eq_sym W3)); unfold NA; ring.
  Qed.
  Lemma cam_plain_main : (N.of_nat (cam_k m) < 65536)%N ->
    exists c, jc_run _ sp_addJ al (sp_init (cam_k m)) (cam_jac m v ph s) = Ok c /\
      (forall d i j, In d (cam_dvs v) -> d <> c_s v -> dv_active d = true -> (i < cam_k m)%nat -> (j < dv_dim d)%nat ->
        derivable_pt_lim (fun h => residual m v ph y (moved s d j h) i) 0 (jacobian_entry (jc_store c) d i j)) /\
      (forall i j, (i < cam_k m)%nat -> (j < dv_dim (c_s v))%nat -> dv_active (c_s v) = true -> jacobian_entry (jc_store c) (c_s v) i j = 0).
  Proof.
    intros Hr. set (r := cam_k m) in *.
    set (Dp := fun (d : dvr) i j => if dv_active (c_p v) then if (dv_id (c_p v) =? dv_id d)%nat then - cam_at (cam_Jp m) v ph s i j else 0 else 0).
    set (Dd := fun (d : dvr) i j => if dv_active (c_d v) then if (dv_id (c_d v) =? dv_id d)%nat then - cam_at (cam_Jd m) v ph s i j else 0 else 0).
    assert (C : contributes r 0 0 (cam_jac m v ph s) (fun d i j => Dp d i j + Dd d i j)).
    { unfold cam_jac. apply (conA r 0 0 _ _ Dp Dd); unfold Dp, Dd.
      - destruct (dv_active (c_p v)); [exact (one_add r (c_p v) (fun i j => - cam_at (cam_Jp m) v ph s i j))|apply con0].
      - destruct (dv_active (c_d v)); [exact (one_add r (c_d v) (fun i j => - cam_at (cam_Jd m) v ph s i j))|apply con0]. }
    assert (In_ : forall x, In x (ops_dvs (cam_jac m v ph s)) -> In x (cam_dvs v)). { intros x. unfold cam_jac, cam_dvs. destruct (dv_active (c_p v)), (dv_active (c_d v)); cbn; intuition. }
    destruct (contributes_entry r 0 0 _ _ al (cam_dvs v) C Ha Hr (stack_room_room _ _ _ _ (room0 r)) Wd In_) as (c & Er & _ & En).
    exists c. split; [exact Er|]. destruct CW as (W1 & W2 & W3). split.
    - intros d i j Hd Ns Ad Hi Hj. eapply eq_ind; [apply res_der; auto|]. symmetry. etransitivity; [apply En; auto|]. unfold Dp, Dd, camJ.
      destruct Hd as [E|[E|[E|[]]]]; subst d; [| |congruence]; rewrite Ad, ?Nat.eqb_refl, ?(proj2 (Nat.eqb_neq _ _) W1), ?(proj2 (Nat.eqb_neq _ _) (not_eq_sym W1)); repeat match goal with |- context [if dv_active ?d then _ else _] => destruct (dv_active d) end; ring.
    - intros i j Hi Hj As. etransitivity; [apply En; auto; unfold cam_dvs; cbn; auto|]. unfold Dp, Dd. rewrite (proj2 (Nat.eqb_neq _ _) W2), (proj2 (Nat.eqb_neq _ _) W3). destruct (dv_active (c_p v)), (dv_active (c_d v)); ring.
  Qed.
End Cam.
