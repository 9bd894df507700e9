(** * More than n vectors in n dimensions are dependent, and the conjugate gradient recurrence (mathematics only) *)
From Coq Require Import Reals Lra Lia Arith List Permutation.
From Verif Require Import Lib_Ring Lib_Real.
Import ListNotations.
Open Scope R_scope.

Lemma dependent : forall n (V : nat -> vec R) (L : list nat), NoDup L -> (n < length L)%nat ->
  exists c : nat -> R, (exists i, In i L /\ c i <> 0) /\ forall p, (p < n)%nat -> lsum L (fun i => c i * V i p) = 0.
Proof.
  induction n as [|n IH]; intros V L ND HL.
  - destruct L as [|i L]; [cbn in HL; lia|]. exists (fun _ => 1). split; [exists i; split; [left; auto|lra]|]. intros p Hp. lia.
  - destruct (Exists_dec (fun i => V i n <> 0) L) as [E|E].
    { intros i. destruct (Req_EM_T (V i n) 0) as [H|H]; [right|left]; auto. }
    + apply Exists_exists in E. destruct E as (j & Hj & Nj). destruct (in_split j L Hj) as (L1 & L2 & ->).
      pose proof (NoDup_remove_1 _ _ _ ND) as ND1. pose proof (NoDup_remove_2 _ _ _ ND) as ND2.
      set (ratio := fun i => V i n / V j n).
      destruct (IH (fun i p => V i p - ratio i * V j p) (L1 ++ L2) ND1) as (c & (i0 & Hi0 & Ci0) & Z).
      { rewrite app_length in *. cbn [length] in HL. lia. }
      set (cj := - lsum (L1 ++ L2) (fun i => c i * ratio i)).
      exists (fun i => if Nat.eqb i j then cj else c i). split.
      * exists i0. split.
        { apply in_app_iff in Hi0. apply in_app_iff. destruct Hi0; [left|right; right]; auto. }
        destruct (Nat.eqb_spec i0 j) as [->|]; auto.
      * intros p Hp. rewrite (lsum_perm _ (L1 ++ j :: L2) (j :: L1 ++ L2)) by (apply Permutation_sym, Permutation_middle). cbn [lsum]. rewrite Nat.eqb_refl.
        rewrite (lsum_ext _ (L1 ++ L2) _ (fun i => c i * (V i p - ratio i * V j p) + c i * ratio i * V j p)).
        2:{ intros i Hi. destruct (Nat.eqb_spec i j) as [->|]; [contradiction|]. cbn. ring. }
        change (fun i => c i * (V i p - ratio i * V j p) + c i * ratio i * V j p) with (fun i => kadd (c i * (V i p - ratio i * V j p)) (c i * ratio i * V j p)).
        rewrite lsum_add. change (fun x => c x * ratio x * V j p) with (fun x => kmul (c x * ratio x) (V j p)). rewrite lsum_mul_r.
        assert (E0 : lsum (L1 ++ L2) (fun i => c i * (V i p - ratio i * V j p)) = 0).
        { destruct (Nat.eq_dec p n) as [->|N].
          - apply (@lsum_zero R RRing). intros i _. unfold ratio. cbn. field. exact Nj.
          - apply Z. lia. }
        rewrite E0. unfold cj. cbn. ring.
    + assert (A0 : forall i, In i L -> V i n = 0).
      { intros i Hi. destruct (Req_EM_T (V i n) 0); auto. exfalso. apply E, Exists_exists. eauto. }
      destruct (IH V L ND ltac:(lia)) as (c & C1 & C2). exists c. split; auto. intros p Hp. destruct (Nat.eq_dec p n) as [->|N]; [|apply C2; lia].
      apply (@lsum_zero R RRing). intros i Hi. rewrite A0 by auto. cbn. ring.
Qed.

Section CG.
  Variables (n : nat) (S : mat R) (J : vec R -> vec R).
  Definition nz (v : vec R) : Prop := exists i, (i < n)%nat /\ v i <> 0.
  Hypothesis Sy : forall p q, (p < n)%nat -> (q < n)%nat -> S p q = S q p.
  Hypothesis Pd : forall v, nz v -> 0 < vdot n v (mvmul n S v).
  Hypothesis Jy : forall u v, vdot n u (J v) = vdot n (J u) v.

  Lemma S_sym : forall u v, vdot n u (mvmul n S v) = vdot n (mvmul n S u) v.
  Proof. intros u v. rewrite vdot_mvmul. apply vdot_ext; [|apply veq_refl]. intros i Hi. unfold mvmul, mtr. apply ksum_ext. intros k Hk. rewrite Sy by auto. reflexivity. Qed.

  Variables (x r d q : nat -> vec R) (dn a : nat -> R) (N : nat).
  (* the quotient is used only when its divisor is not 0 *)
  Hypothesis Aq : forall k, (k < N)%nat -> vdot n (d k) (q k) <> 0 -> a k = dn k / vdot n (d k) (q k).
  Hypothesis X0 : veq n (x 0%nat) (fun _ => 0).
  Hypothesis D0 : veq n (d 0%nat) (J (r 0%nat)).
  Hypothesis Dn : forall k, (k <= N)%nat -> dn k = vdot n (r k) (J (r k)).
  Hypothesis Pos : forall k, (k < N)%nat -> 0 < dn k.
  Hypothesis Q : forall k, (k < N)%nat -> veq n (q k) (mvmul n S (d k)).
  Hypothesis Xs : forall k, (k < N)%nat -> veq n (x (k + 1)%nat) (vadd (x k) (vscale (a k) (d k))).
  Hypothesis Rs : forall k, (k < N)%nat -> veq n (r (k + 1)%nat) (vsub (r k) (vscale (a k) (q k))).
  Hypothesis Ds : forall k, (k < N)%nat -> veq n (d (k + 1)%nat) (vadd (J (r (k + 1)%nat)) (vscale (dn (k + 1)%nat / dn k) (d k))).

  Definition Sd i := mvmul n S (d i).
  Lemma Qd : forall k, (k < N)%nat -> veq n (q k) (Sd k). Proof. exact Q. Qed.
  Definition Inv (k : nat) : Prop :=
    (forall i, (i < k)%nat -> vdot n (r k) (d i) = 0) /\ (forall i, (i < k)%nat -> vdot n (d k) (Sd i) = 0) /\ vdot n (r k) (d k) = dn k /\
    (forall i, (i < k)%nat -> 0 < vdot n (d i) (Sd i)) /\ (forall y, (forall i, (i < k)%nat -> vdot n (d i) y = 0) -> vdot n (x k) y = 0).
  Lemma nz_of_dot : forall u v, vdot n u v <> 0 -> nz v.
  Proof.
    intros u v H. destruct (Exists_dec (fun i => v i <> 0) (seq 0 n)) as [E|E].
    { intros i. destruct (Req_EM_T (v i) 0); [right|left]; auto. }
    - apply Exists_exists in E. destruct E as (i & Hi & Vi). apply in_seq in Hi. exists i. split; [lia|auto].
    - exfalso. apply H. unfold vdot. apply (@ksum_zero R RRing). intros i Hi. destruct (Req_EM_T (v i) 0) as [->|F]; [cbn; ring|]. exfalso. apply E, Exists_exists. exists i. split; auto. apply in_seq. lia.
  Qed.

  Lemma inv_ok : forall k, (k <= N)%nat -> Inv k.
  Proof.
    induction k as [|k IH]; intros Hk.
    - split; [lia|]. split; [lia|]. split; [|split; [lia|]].
      + rewrite Dn by lia. apply vdot_ext; [apply veq_refl|exact D0].
      + intros y _. unfold vdot. apply (@ksum_zero R RRing). intros i Hi. rewrite X0 by auto. cbn. ring.
    - specialize (IH ltac:(lia)). destruct IH as (I1 & I2 & I3 & I4 & I5). replace (Datatypes.S k) with (k + 1)%nat by lia.
      assert (Hk' : (k < N)%nat) by lia. pose proof (Pos k Hk') as Pk.
      assert (Dk : 0 < vdot n (d k) (Sd k)) by (apply Pd; apply (nz_of_dot (r k)); lra).
      assert (I4' : forall i, (i < k + 1)%nat -> 0 < vdot n (d i) (Sd i)) by (intros i Hi; destruct (Nat.eq_dec i k) as [->|]; auto; apply I4; lia).
      assert (Ak : a k = dn k / vdot n (d k) (Sd k)) 
        by (rewrite Aq by (auto; rewrite (vdot_ext n (d k) (d k) (q k) (Sd k) (veq_refl _ _) (Qd k Hk')); lra); rewrite (vdot_ext n (d k) (d k) (q k) (Sd k) (veq_refl _ _) (Qd k Hk')); auto).
      assert (Rk : forall v, vdot n (r (k + 1)%nat) v = vdot n (r k) v - a k * vdot n (Sd k) v).
      { intros v. rewrite (vdot_ext n _ (vsub (r k) (vscale (a k) (Sd k))) v v) by (auto using veq_refl; intros p Hp; rewrite Rs by auto; unfold vsub, vscale; rewrite Q by auto; reflexivity).
        rewrite vdot_sub_l, vdot_scale_l. reflexivity. }
      assert (J1 : forall i, (i < k + 1)%nat -> vdot n (r (k + 1)%nat) (d i) = 0).
      { intros i Hi. rewrite Rk. destruct (Nat.eq_dec i k) as [->|N1].
        - rewrite I3, Ak, (vdot_comm n (Sd k)). field. lra.
        - rewrite I1 by lia. unfold Sd at 1. rewrite <- S_sym. fold (Sd i). rewrite I2 by lia. ring. }
      assert (J2 : forall i, (i < k + 1)%nat -> vdot n (r (k + 1)%nat) (J (r i)) = 0).
      { intros i Hi. destruct i as [|i].
        - rewrite (vdot_ext n _ (r (k + 1)%nat) _ (d 0%nat)) by (auto using veq_refl, veq_sym). apply J1. lia.
        - replace (Datatypes.S i) with (i + 1)%nat by lia. pose proof (Ds i ltac:(lia)) as Di.
          rewrite (vdot_ext n _ (r (k + 1)%nat) _ (vsub (d (i + 1)%nat) (vscale (dn (i + 1)%nat / dn i) (d i)))) by (auto using veq_refl; intros p Hp; unfold vsub, vscale; rewrite Di by auto; unfold vadd, vscale; cbn; ring).
          rewrite vdot_sub_r, vdot_scale_r, !J1 by lia. cbn. ring. }
      assert (DD : forall v, vdot n (d (k + 1)%nat) v = vdot n (J (r (k + 1)%nat)) v + dn (k + 1)%nat / dn k * vdot n (d k) v).
      { intros v. rewrite (vdot_ext n _ _ v v (Ds k Hk') (veq_refl _ _)), vdot_add_l, vdot_scale_l. reflexivity. }
      assert (SdR : forall i v, (i < k + 1)%nat -> a i * vdot n v (Sd i) = vdot n v (r i) - vdot n v (r (i + 1)%nat)).
      { intros i v Hi. rewrite (vdot_ext n v v (r (i + 1)%nat) (vsub (r i) (vscale (a i) (Sd i)))) by (auto using veq_refl; intros p Hp; rewrite Rs by (auto; lia); unfold vsub, vscale; rewrite Q by (auto; lia); reflexivity).
        rewrite vdot_sub_r, vdot_scale_r. cbn. ring. }
      assert (Anz : forall i, (i < k + 1)%nat -> a i <> 0).
      { intros i Hi. pose proof (I4' i Hi) as G. rewrite <- (vdot_ext n (d i) (d i) (q i) (Sd i) (veq_refl _ _) (Qd i ltac:(lia))) in G. rewrite Aq by (try lia; lra). pose proof (Pos i ltac:(lia)). assert (0 < dn i / vdot n (d i) (q i)) by (apply Rdiv_lt_0_compat; auto). lra. }
      split; [exact J1|]. split; [|split; [|split; [exact I4'|]]].
      + intros i Hi. apply (Rmult_eq_reg_l (a i)); [|auto]. rewrite Rmult_0_r, DD, Rmult_plus_distr_l, SdR by auto. rewrite <- !Jy, J2 by auto.
        destruct (Nat.eq_dec i k) as [->|N1].
        * rewrite <- Dn by lia. rewrite Ak. field. split; lra.
        * rewrite J2, I2 by lia. ring.
      + rewrite vdot_comm, DD, <- Jy, <- Dn by lia. rewrite (vdot_comm n (d k)), J1 by lia. ring.
      + intros y Hy. rewrite (vdot_ext n _ _ y y (Xs k Hk') (veq_refl _ _)), vdot_add_l, vdot_scale_l, I5, Hy by (try lia; intros; apply Hy; lia). cbn. ring.
  Qed.

  (* every division of the recurrence is by a positive number *)
  Lemma divisors : forall k, (k < N)%nat -> 0 < vdot n (d k) (q k).
  Proof. intros k Hk. destruct (inv_ok (k + 1)%nat ltac:(lia)) as (_ & _ & _ & H & _). rewrite (vdot_ext n (d k) (d k) (q k) (Sd k) (veq_refl _ _) (Qd k ltac:(assumption))). apply H. lia. Qed.
  (* the iterate is orthogonal to its residual *)
  Lemma ortho : vdot n (x N) (r N) = 0.
  Proof. destruct (inv_ok N ltac:(lia)) as (H1 & _ & _ & _ & H5). apply H5. intros i Hi. rewrite vdot_comm. auto. Qed.
  (* after n steps nothing is left *)
  Lemma finished : (n <= N)%nat -> dn n = 0.
  Proof.
    intros Hn. destruct (Req_EM_T (dn n) 0) as [H|H]; auto. exfalso.
    destruct (inv_ok n Hn) as (_ & I2 & I3 & I4 & _).
    assert (P : forall i, (i < Datatypes.S n)%nat -> 0 < vdot n (d i) (Sd i)).
    { intros i Hi. destruct (Nat.eq_dec i n) as [->|]; [|apply I4; lia]. apply Pd, (nz_of_dot (r n)). rewrite I3. auto. }
    assert (C : forall i j, (i < Datatypes.S n)%nat -> (j < Datatypes.S n)%nat -> i <> j -> vdot n (d i) (Sd j) = 0).
    { intros i j Hi Hj D. destruct (Nat.lt_gt_cases i j) as [L _]. destruct (L D) as [G|G].
      - unfold Sd. rewrite S_sym, vdot_comm. destruct (inv_ok j ltac:(lia)) as (_ & I & _). apply I. auto.
      - destruct (inv_ok i ltac:(lia)) as (_ & I & _). apply I. auto. }
    destruct (dependent n d (seq 0 (Datatypes.S n)) (seq_NoDup _ _) ltac:(rewrite seq_length; lia)) as (c & (i0 & Hi0 & Ci0) & Z). apply in_seq in Hi0.
    assert (E : c i0 * vdot n (d i0) (Sd i0) = 0).
    { transitivity (lsum (seq 0 (Datatypes.S n)) (fun i => c i * vdot n (d i) (Sd i0))).
      - rewrite lsum_seq. symmetry. apply (ksum_single (Datatypes.S n) i0 (fun i => c i * vdot n (d i) (Sd i0))); [lia|]. intros j Hj Nj. rewrite C by (auto; lia). cbn. ring.
      - transitivity (ksum n (fun p => lsum (seq 0 (Datatypes.S n)) (fun i => c i * d i p * Sd i0 p))).
        + rewrite <- (lsum_ksum_swap _ (seq 0 (Datatypes.S n)) n (fun i p => c i * d i p * Sd i0 p)). apply lsum_ext. intros i _. unfold vdot.
          change (c i * ksum n (fun i1 => kmul (d i i1) (Sd i0 i1))) with (kmul (c i) (ksum n (fun i1 => kmul (d i i1) (Sd i0 i1)))). rewrite <- ksum_mul_l. apply ksum_ext. intros p _. cbn. ring.
        + apply (@ksum_zero R RRing). intros p Hp. change (fun i => c i * d i p * Sd i0 p) with (fun i => kmul (c i * d i p) (Sd i0 p)). rewrite lsum_mul_r, Z by auto. cbn. ring. }
    specialize (P i0 ltac:(lia)). apply Rmult_integral in E. destruct E as [E|E]; [auto|lra].
  Qed.
End CG.
