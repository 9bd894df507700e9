(** * Quaternions stay unit, matrices stay rotations (proofs only) *)
From Coq Require Import Arith Lia List Reals Lra.
From Verif Require Import Lib_Ring Lib_Real Lib_Res Geo_Model Geo_Spec Geo_Algebra Quat_Model Quat_Spec.
Import ListNotations.
Local Open Scope R_scope.

Lemma qplus_unit : forall q p, unit_quat q -> unit_quat p -> unit_quat (qplus q p).
Proof.
  unfold unit_quat. intros q p Hq Hp. cbn [qplus].
  transitivity ((q 0%nat * q 0%nat + q 1%nat * q 1%nat + q 2%nat * q 2%nat + q 3%nat * q 3%nat) * (p 0%nat * p 0%nat + p 1%nat * p 1%nat + p 2%nat * p 2%nat + p 3%nat * p 3%nat)); [ring|rewrite Hq, Hp; ring].
Qed.
Lemma quat_rot : forall q, unit_quat q -> is_rot (quat2r q).
Proof.
  unfold unit_quat. intros q H. set (x := q 0%nat) in *. set (y := q 1%nat) in *. set (z := q 2%nat) in *. set (w := q 3%nat) in *.
  assert (HH : (x * x + y * y + z * z + w * w) * (x * x + y * y + z * z + w * w) = 1) by (rewrite H; ring).
  assert (HHH : (x * x + y * y + z * z + w * w) * (x * x + y * y + z * z + w * w) * (x * x + y * y + z * z + w * w) = 1) by (rewrite H; ring).
  split; [|split].
  - intros i j Hi Hj. unfold mmul, mtr, mid, delta. rewrite ks3. cbn [kmul RRing].
    idx i; idx j; cbn; fold x y z w; first [ring | rewrite <- HH; ring].
  - intros i j Hi Hj. unfold mmul, mtr, mid, delta. rewrite ks3. cbn [kmul RRing].
    idx i; idx j; cbn; fold x y z w; first [ring | rewrite <- HH; ring].
  - unfold det3. cbn. fold x y z w. rewrite <- HHH. ring.
Qed.
Lemma quat_mul : forall q p i j, quat2r (qplus q p) i j = mmul 3 (quat2r q) (quat2r p) i j.
Proof. intros q p i j. unfold mmul. rewrite ks3. destruct i as [|[|i]]; destruct j as [|[|j]]; cbn; ring. Qed.

Lemma run_inv : forall aa2q l r, (forall d, unit_quat (aa2q d)) -> unit_quat (rq r) -> unit_quat (rp r) -> is_rot (rC r) -> Forall given_ok l ->
  let r' := rot_run aa2q r l in unit_quat (rq r') /\ unit_quat (rp r') /\ is_rot (rC r') /\ (l <> [] -> rC r' = quat2r (rq r')).
Proof.
  intros aa2q l. induction l as [|o l IH]; intros r Ha H1 H2 H3 G; [cbn; repeat split; auto; try apply H3; congruence|]. inversion G as [|o' l' Go Gl]; subst. cbn zeta. unfold rot_run. cbn [fold_left].
  assert (Q : unit_quat (rq (rot_step aa2q r o)) /\ unit_quat (rp (rot_step aa2q r o)) /\ rC (rot_step aa2q r o) = quat2r (rq (rot_step aa2q r o))).
  { destruct o; cbn [rot_step rq rp rC given_ok] in *; repeat split; auto. apply qplus_unit; auto. }
  destruct Q as (Q1 & Q2 & Q3). assert (Q4 : is_rot (rC (rot_step aa2q r o))) by (rewrite Q3; apply quat_rot; auto).
  destruct (IH (rot_step aa2q r o) Ha Q1 Q2 Q4 Gl) as (R1 & R2 & R3 & R4). split; [exact R1|]. split; [exact R2|]. split; [exact R3|]. intros _. destruct l; [exact Q3|apply R4; discriminate].
Qed.
Lemma new_inv : forall aa2q l q, (forall d, unit_quat (aa2q d)) -> unit_quat q -> Forall given_ok l -> let r := rot_run aa2q (rot_new q) l in unit_quat (rq r) /\ rC r = quat2r (rq r) /\ is_rot (rC r).
Proof.
  intros aa2q l q Ha Hq G. destruct (run_inv aa2q l (rot_new q) Ha Hq Hq (quat_rot q Hq) G) as (H1 & H2 & H3 & H4). split; auto. split; auto. destruct l; [reflexivity|apply H4; discriminate].
Qed.
Lemma new_C_inv : forall aa2q r2quat l C, (forall d, unit_quat (aa2q d)) -> is_rot C -> unit_quat (r2quat C) -> Forall given_ok l -> let r := rot_run aa2q (rot_new_C r2quat C) l in unit_quat (rq r) /\ is_rot (rC r).
Proof. intros aa2q r2quat l C Ha HC Hq G. destruct (run_inv aa2q l (rot_new_C r2quat C) Ha Hq Hq HC G) as (H1 & H2 & H3 & H4). split; auto. Qed.

Lemma exact_unit : forall d, unit_quat (exact_aa2q d).
Proof.
  intros d. unfold unit_quat, exact_aa2q. set (n2 := d 0%nat * d 0%nat + d 1%nat * d 1%nat + d 2%nat * d 2%nat). assert (P : 0 <= n2) by (unfold n2; nra).
  destruct (Req_EM_T (sqrt n2) 0) as [E|E]; cbn [Nat.eqb]; [ring|]. assert (S2 : sqrt n2 * sqrt n2 = n2) by (apply sqrt_sqrt; auto). set (th := sqrt n2) in *.
  transitivity ((sin (th / 2) / th) * (sin (th / 2) / th) * n2 + cos (th / 2) * cos (th / 2)); [unfold n2; ring|]. rewrite <- S2. pose proof (sin2_cos2 (th / 2)) as T. unfold Rsqr in T.
  transitivity (sin (th / 2) * sin (th / 2) + cos (th / 2) * cos (th / 2)); [field; auto|exact T].
Qed.
(* the update about a coordinate axis, with the exact formula *)
Lemma exact_axis : forall j h i, (j < 3)%nat -> (i < 4)%nat -> exact_aa2q (axis_vec j h) i = if (i =? 3)%nat then cos (h / 2) else axis_vec j (sin (h / 2)) i.
Proof.
  intros j h i Hj Hi. unfold exact_aa2q. assert (N : sqrt (axis_vec j h 0%nat * axis_vec j h 0%nat + axis_vec j h 1%nat * axis_vec j h 1%nat + axis_vec j h 2%nat * axis_vec j h 2%nat) = Rabs h).
  { transitivity (sqrt (Rsqr h)); [f_equal; unfold Rsqr; idx j; unfold axis_vec; cbn; ring|apply sqrt_Rsqr_abs]. }
  rewrite N. destruct (Req_EM_T (Rabs h) 0) as [E|E].
  - assert (h = 0) by (destruct (Req_dec h 0); auto; apply Rabs_no_R0 in H; contradiction). subst h. replace (0 / 2) with 0 by lra. rewrite cos_0, sin_0. destruct (i =? 3)%nat; auto. unfold axis_vec. destruct (i =? j)%nat; auto.
  - assert (h <> 0) by (intro; subst; rewrite Rabs_R0 in E; auto). destruct (Nat.eqb_spec i 3).
    + unfold Rabs. destruct (Rcase_abs h); auto. replace (- h / 2) with (- (h / 2)) by lra. apply cos_neg.
    + unfold axis_vec. destruct (i =? j)%nat; [|ring]. unfold Rabs. destruct (Rcase_abs h); [replace (- h / 2) with (- (h / 2)) by lra; rewrite sin_neg|]; field; auto.
Qed.
Lemma axis_update : forall q j h, (j < 3)%nat -> meq 3 3 (quat2r (updateQuat exact_aa2q q (axis_vec j h))) (mmul 3 (axis_rot j (- h)) (quat2r q)).
Proof.
  intros q j h Hj i k Hi Hk. unfold updateQuat. rewrite quat_mul. unfold mmul. apply ksum_ext. intros l Hl. cbn [kmul RRing]. f_equal.
  assert (Hc : cos h = cos (h / 2) * cos (h / 2) - sin (h / 2) * sin (h / 2)) by (replace h with (2 * (h / 2)) at 1 by lra; apply cos_2a).
  assert (Hs : sin h = 2 * sin (h / 2) * cos (h / 2)) by (replace h with (2 * (h / 2)) at 1 by lra; apply sin_2a).
  assert (H1 : 1 = sin (h / 2) * sin (h / 2) + cos (h / 2) * cos (h / 2)) by (pose proof (sin2_cos2 (h / 2)) as T; unfold Rsqr in T; lra).
  unfold quat2r. rewrite !exact_axis by lia. unfold axis_vec, axis_rot. rewrite ?cos_neg, ?sin_neg, Hc, Hs. idx j; idx i; idx l; cbn; first [ring | rewrite H1 at 1; ring | lra].
Qed.
