(** * Rotation matrices and rigid transformations (proofs only) *)
From Coq Require Import Arith Lia List ZArith NArith Bool Reals Lra.
From Verif Require Import Lib_Ring Lib_Real Lib_Res MatrixStack_Model DesignVar_Base Jacobian_Model Scalar_Model Scalar_Spec Geo_Model Geo_Spec.
Import ListNotations.
Local Open Scope R_scope.

Lemma ks1 : forall f : nat -> R, ksum 1 f = f 0%nat.
Proof. intros. cbn. ring. Qed.
Lemma ks3 : forall f : nat -> R, ksum 3 f = f 0%nat + f 1%nat + f 2%nat.
Proof. intros. cbn. ring. Qed.
Lemma ks4 : forall f : nat -> R, ksum 4 f = f 0%nat + f 1%nat + f 2%nat + f 3%nat.
Proof. intros. cbn. ring. Qed.
Lemma ks6 : forall f : nat -> R, ksum 6 f = f 0%nat + f 1%nat + f 2%nat + f 3%nat + f 4%nat + f 5%nat.
Proof. intros. cbn. ring. Qed.
Lemma ks9 : forall f : nat -> R, ksum 9 f = f 0%nat + f 1%nat + f 2%nat + f 3%nat + f 4%nat + f 5%nat + f 6%nat + f 7%nat + f 8%nat.
Proof. intros. cbn. ring. Qed.
(* an equation that differs from a known one by ring steps *)
Lemma eq_by : forall x y a b : R, x = y -> a - b = x - y -> a = b.
Proof. intros. lra. Qed.

Ltac idx i := destruct i as [|[|[|[|[|[|i]]]]]]; try (exfalso; lia).
Ltac expand := unfold meq, mmul, mvmul, mtr, mid in *; rewrite ?ks1, ?ks3, ?ks4, ?ks6 in *; cbn [crossm delta Nat.eqb] in *; unfold delta in *; cbn [Nat.eqb k0 k1 kadd kmul ksub kopp RRing] in *.

Lemma meq3 : forall A B : mat R, meq 3 3 A B -> (A 0%nat 0%nat = B 0%nat 0%nat /\ A 0%nat 1%nat = B 0%nat 1%nat /\ A 0%nat 2%nat = B 0%nat 2%nat) /\ (A 1%nat 0%nat = B 1%nat 0%nat /\ A 1%nat 1%nat = B 1%nat 1%nat /\ A 1%nat 2%nat = B 1%nat 2%nat) /\
  (A 2%nat 0%nat = B 2%nat 0%nat /\ A 2%nat 1%nat = B 2%nat 1%nat /\ A 2%nat 2%nat = B 2%nat 2%nat).
Proof. intros A B H. repeat split; apply H; lia. Qed.

(* crossm acts on vectors as the cross product; only three components matter *)
Lemma crossm_ext : forall a b i j, (forall k, (k < 3)%nat -> a k = b k) -> crossm a i j = crossm b i j.
Proof. intros a b i j H. pose proof (H 0%nat). pose proof (H 1%nat). pose proof (H 2%nat). destruct i as [|[|[|i]]], j as [|[|[|j]]]; cbn; rewrite ?H; auto; lia. Qed.
Lemma rot_ext : forall A B, meq 3 3 A B -> is_rot A -> is_rot B.
Proof.
  intros A B E (H1 & H2 & H3). apply meq3 in E. destruct E as ((E1 & E2 & E3) & (E4 & E5 & E6) & E7 & E8 & E9). split; [|split].
  - intros i j Hi Hj. rewrite <- (H1 i j Hi Hj). idx i; idx j; expand; rewrite ?E1, ?E2, ?E3, ?E4, ?E5, ?E6, ?E7, ?E8, ?E9; auto.
  - intros i j Hi Hj. rewrite <- (H2 i j Hi Hj). idx i; idx j; expand; rewrite ?E1, ?E2, ?E3, ?E4, ?E5, ?E6, ?E7, ?E8, ?E9; auto.
  - rewrite <- H3. unfold det3. rewrite ?E1, ?E2, ?E3, ?E4, ?E5, ?E6, ?E7, ?E8, ?E9; auto.
Qed.
Lemma rot_id : is_rot mid.
Proof. split; [|split]. - intros i j Hi Hj. idx i; idx j; expand; ring. - intros i j Hi Hj. idx i; idx j; expand; ring. - unfold det3. expand. ring. Qed.
Lemma rot_tr : forall A, is_rot A -> is_rot (mtr A).
Proof. intros A (H1 & H2 & H3). split; [|split]; [exact H2|exact H1|]. rewrite <- H3. unfold det3, mtr. ring. Qed.
Lemma det_mul : forall A B, det3 (mmul 3 A B) = det3 A * det3 B.
Proof. intros. unfold det3, mmul. rewrite !ks3. cbn. ring. Qed.
Lemma mid_l : forall P Q i j, meq 3 3 P mid -> (i < 3)%nat -> mmul 3 P Q i j = Q i j.
Proof. intros P Q i j H Hi. unfold mmul. rewrite (ksum_ext 3 _ (fun l => kmul (mid i l) (Q l j))); [|intros l Hl; rewrite H by auto; auto]. unfold mid. apply (@ksum_delta_l R RRing 3 i (fun k => Q k j)); auto. Qed.
Lemma mul_congr : forall P Q Q' i j, (forall k, (k < 3)%nat -> Q k j = Q' k j) -> mmul 3 P Q i j = mmul 3 P Q' i j.
Proof. intros P Q Q' i j H. unfold mmul. apply ksum_ext. intros k Hk. rewrite H; auto. Qed.
Lemma mul_assoc : forall A B C i j, mmul 3 (mmul 3 A B) C i j = mmul 3 A (mmul 3 B C) i j.
Proof. intros. unfold mmul. rewrite !ks3. cbn. ring. Qed.
Lemma mul_tr : forall A B i j, mtr (mmul 3 A B) i j = mmul 3 (mtr B) (mtr A) i j.
Proof. intros. unfold mtr, mmul. rewrite !ks3. cbn. ring. Qed.
Lemma rot_mul : forall A B, is_rot A -> is_rot B -> is_rot (mmul 3 A B).
Proof.
  intros A B (A1 & A2 & A3) (B1 & B2 & B3). split; [|split].
  - intros i j Hi Hj. rewrite mul_assoc. rewrite (mul_congr _ _ (mtr A)); [apply A1; auto|]. intros k Hk.
    rewrite (mul_congr _ _ (mmul 3 (mtr B) (mtr A))) by (intros; apply mul_tr). rewrite <- mul_assoc. apply mid_l; auto.
  - intros i j Hi Hj. transitivity (mmul 3 (mmul 3 (mtr B) (mtr A)) (mmul 3 A B) i j); [unfold mmul at 1 3; apply ksum_ext; intros; rewrite mul_tr; auto|].
    rewrite mul_assoc. rewrite (mul_congr _ _ B); [apply B2; auto|]. intros k Hk. rewrite <- mul_assoc. apply mid_l; auto.
  - rewrite det_mul, A3, B3. ring.
Qed.

(* C (a x b) = C a x C b *)
Lemma cof_cross : forall C a i j, (i < 3)%nat -> (j < 3)%nat -> mmul 3 (mtr C) (mmul 3 (crossm (mvmul 3 C a)) C) i j = det3 C * crossm a i j.
Proof. intros C a i j Hi Hj. unfold mtr, mmul. rewrite !ks3. idx i; idx j; cbn [crossm]; unfold mvmul, det3; rewrite !ks3; cbn; ring. Qed.
Lemma rot_cross_m : forall C a i j, is_rot C -> (i < 3)%nat -> (j < 3)%nat -> mmul 3 C (crossm a) i j = mmul 3 (crossm (mvmul 3 C a)) C i j.
Proof.
  intros C a i j (H1 & H2 & H3) Hi Hj. transitivity (mmul 3 C (mmul 3 (mtr C) (mmul 3 (crossm (mvmul 3 C a)) C)) i j).
  - apply mul_congr. intros k Hk. rewrite cof_cross by auto. rewrite H3. ring.
  - rewrite <- mul_assoc. apply mid_l; auto.
Qed.
Lemma mv_mul : forall P Q b i, mvmul 3 P (mvmul 3 Q b) i = mvmul 3 (mmul 3 P Q) b i.
Proof. intros. unfold mvmul, mmul. rewrite !ks3. cbn. ring. Qed.
Lemma rot_cross : forall C a b i, is_rot C -> (i < 3)%nat -> mvmul 3 C (mvmul 3 (crossm a) b) i = mvmul 3 (crossm (mvmul 3 C a)) (mvmul 3 C b) i.
Proof. intros C a b i H Hi. rewrite !mv_mul. unfold mvmul at 1 2. apply ksum_ext. intros k Hk. rewrite rot_cross_m; auto. Qed.
(* C^T C v = v *)
Lemma rot_inv_v : forall C v i, is_rot C -> (i < 3)%nat -> mvmul 3 (mtr C) (mvmul 3 C v) i = v i.
Proof.
  intros C v i (H1 & H2 & H3) Hi. transitivity (mvmul 3 (mmul 3 (mtr C) C) v i); [unfold mvmul, mmul; rewrite !ks3; cbn; ring|].
  unfold mvmul. rewrite (ksum_ext 3 _ (fun l => kmul (mid i l) (v l))); [|intros l Hl; rewrite H2 by auto; auto]. unfold mid. apply (@ksum_delta_l R RRing); auto.
Qed.

(** rotations about a coordinate axis *)
Lemma rot_axis : forall axis x, (axis < 3)%nat -> is_rot (axis_rot axis x).
Proof.
  intros axis x Ha. assert (E : sin x * sin x + cos x * cos x = 1) by (pose proof (sin2_cos2 x); unfold Rsqr in *; lra). split; [|split].
  - intros i j Hi Hj. idx axis; idx i; idx j; expand; cbn; lra.
  - intros i j Hi Hj. idx axis; idx i; idx j; expand; cbn; lra.
  - idx axis; unfold det3; cbn; lra.
Qed.

(** rigid transformations *)
Lemma rigid_mk : forall C t, is_rot C -> rigid (mk_T C t).
Proof.
  intros C t H. split; [|split].
  - apply (rot_ext C); auto. intros i j Hi Hj. unfold mk_T. destruct (Nat.ltb_spec i 3); [|lia]. destruct (Nat.ltb_spec j 3); [auto|lia].
  - intros j Hj. unfold mk_T. destruct (Nat.ltb_spec j 3); [reflexivity|lia].
  - reflexivity.
Qed.
Lemma rigid_rot_mul : forall A B i j, rigid B -> (i < 3)%nat -> (j < 3)%nat -> mmul 4 A B i j = mmul 3 A B i j.
Proof. intros A B i j (_ & Z & _) Hi Hj. unfold mmul. rewrite ks4, ks3. rewrite (Z j Hj). cbn. ring. Qed.
Lemma rigid_trans_mul : forall A B i, rigid B -> mmul 4 A B i 3%nat = mvmul 3 A (trans_part B) i + A i 3%nat.
Proof. intros A B i (_ & _ & Z). unfold mmul, mvmul, trans_part. rewrite ks4, ks3. rewrite Z. cbn. ring. Qed.
Lemma rigid_mul : forall A B, rigid A -> rigid B -> rigid (mmul 4 A B).
Proof.
  intros A B HA HB. assert (HB' := HB). destruct HA as (A1 & A2 & A3). destruct HB as (B1 & B2 & B3). split; [|split].
  - apply (rot_ext (mmul 3 A B)); [|apply rot_mul; auto]. intros i j Hi Hj. symmetry. apply rigid_rot_mul; auto.
  - intros j Hj. unfold mmul. rewrite ks4, !A2, A3, B2 by lia. cbn. ring.
  - unfold mmul. rewrite ks4, !A2, A3, B3 by lia. cbn. ring.
Qed.
Definition rigid_inv (T : mat R) : mat R := mk_T (mtr T) (fun i => - mvmul 3 (mtr T) (trans_part T) i).
Lemma rigid_inv_l : forall T, rigid T -> meq 4 4 (mmul 4 (rigid_inv T) T) mid.
Proof.
  intros T HT. assert (HT' := HT). destruct HT as (H1 & H2 & H3). intros i j Hi Hj. destruct (Nat.ltb_spec i 3) as [Li|Li].
  - destruct (Nat.ltb_spec j 3) as [Lj|Lj].
    + rewrite rigid_rot_mul by auto. transitivity (mmul 3 (mtr T) T i j); [|destruct H1 as (_ & H1 & _); apply H1; auto].
      unfold mmul. apply ksum_ext. intros k Hk. f_equal. unfold rigid_inv, mk_T. destruct (Nat.ltb_spec i 3); [|lia]. destruct (Nat.ltb_spec k 3); [auto|lia].
    + assert (j = 3%nat) by lia. subst j. rewrite rigid_trans_mul by auto. idx i; unfold rigid_inv, mvmul, mk_T, trans_part, mtr, mid, delta; rewrite !ks3; cbn; ring.
  - assert (i = 3%nat) by lia. subst i. unfold mmul. rewrite ks4. destruct (Nat.ltb_spec j 3) as [Lj|Lj].
    + rewrite (H2 j Lj). idx j; unfold rigid_inv, mk_T, mid, delta; cbn; ring.
    + assert (j = 3%nat) by lia. subst j. rewrite H3. unfold rigid_inv, mk_T, mid, delta; cbn; ring.
Qed.
Lemma rigid_ext : forall A B, meq 4 4 A B -> rigid A -> rigid B.
Proof.
  intros A B E (H1 & H2 & H3). split; [|split].
  - apply (rot_ext A); auto. intros i j Hi Hj. apply E; lia.
  - intros j Hj. rewrite <- E by lia. auto.
  - rewrite <- E by lia. auto.
Qed.
Lemma rigid_inv_rigid : forall T, rigid T -> rigid (rigid_inv T).
Proof. intros T (H & _). apply rigid_mk. apply rot_tr. auto. Qed.
