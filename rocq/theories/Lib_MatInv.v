(** * The derivative of a matrix inverse (mathematics only) *)
From Coq Require Import Reals Lra Lia Arith Ring.
From Verif Require Import Lib_Ring Lib_Real.
Local Open Scope R_scope.

Definition lim0 (f : R -> R) : Prop := forall eps, 0 < eps -> exists delta, 0 < delta /\ forall h, Rabs h < delta -> Rabs (f h) < eps.
Definition near (P : R -> Prop) : Prop := exists delta, 0 < delta /\ forall h, Rabs h < delta -> P h.

Lemma near_and : forall P Q : R -> Prop, near P -> near Q -> near (fun h => P h /\ Q h).
Proof. intros P Q (d1 & p1 & H1) (d2 & p2 & H2). exists (Rmin d1 d2). split; [apply Rmin_glb_lt; auto|]. intros h Hh. pose proof (Rmin_l d1 d2). pose proof (Rmin_r d1 d2). split; [apply H1|apply H2]; lra. Qed.
Lemma near_impl : forall P Q : R -> Prop, (forall h, P h -> Q h) -> near P -> near Q.
Proof. intros P Q I (d & p & H). exists d. split; auto. Qed.
Lemma near_all : forall P : R -> Prop, (forall h, P h) -> near P.
Proof. intros P H. exists 1. split; [lra|auto]. Qed.
Lemma near_0 : forall P : R -> Prop, near P -> P 0.
Proof. intros P (d & p & H). apply H. rewrite Rabs_R0. auto. Qed.
Lemma lim0_near : forall f eps, lim0 f -> 0 < eps -> near (fun h => Rabs (f h) < eps).
Proof. intros f eps H E. exact (H eps E). Qed.
Lemma near_lim0 : forall f, (forall eps, 0 < eps -> near (fun h => Rabs (f h) < eps)) -> lim0 f.
Proof. intros f H eps E. exact (H eps E). Qed.
Lemma lim0_const0 : lim0 (fun _ => 0).
Proof. apply near_lim0. intros eps E. apply near_all. intros _. rewrite Rabs_R0. auto. Qed.
Lemma lim0_plus : forall f g, lim0 f -> lim0 g -> lim0 (fun h => f h + g h).
Proof.
  intros f g F G. apply near_lim0. intros eps E. assert (0 < eps / 2) by lra. eapply near_impl; [|apply (near_and _ _ (lim0_near f _ F H) (lim0_near g _ G H))].
  intros h (A & B). cbn beta in *. pose proof (Rabs_triang (f h) (g h)). lra.
Qed.
Lemma lim0_ksum : forall n f, (forall i, (i < n)%nat -> lim0 (f i)) -> lim0 (fun h => ksum n (fun i => f i h)).
Proof. induction n; intros f H; cbn [ksum]; [apply lim0_const0|]. apply lim0_plus; [apply IHn; auto|apply H; lia]. Qed.
Lemma lim0_le : forall f g, near (fun h => Rabs (f h) <= g h) -> lim0 g -> lim0 f.
Proof. intros f g N G. apply near_lim0. intros eps E. eapply near_impl; [|apply (near_and _ _ N (lim0_near g _ G E))]. intros h (A & B). cbn beta in *. pose proof (Rle_abs (g h)). lra. Qed.
Lemma lim0_scal : forall f a, lim0 f -> lim0 (fun h => a * f h).
Proof.
  intros f a F. apply near_lim0. intros eps E. assert (P : 0 < Rabs a + 1) by (pose proof (Rabs_pos a); lra). assert (E' : 0 < eps / (Rabs a + 1)) by (apply Rdiv_lt_0_compat; auto).
  eapply near_impl; [|apply (lim0_near f _ F E')]. intros h A. cbn beta in *. rewrite Rabs_mult. apply Rle_lt_trans with (Rabs a * (eps / (Rabs a + 1))).
  - apply Rmult_le_compat_l; [apply Rabs_pos|lra].
  - apply Rlt_le_trans with ((Rabs a + 1) * (eps / (Rabs a + 1))); [apply Rmult_lt_compat_r; auto; lra|]. right. field. lra.
Qed.
Lemma lim0_abs : forall f, lim0 f -> lim0 (fun h => Rabs (f h)).
Proof. intros f F eps E. destruct (F eps E) as (d & p & H). exists d. split; auto. intros h Hh. rewrite Rabs_Rabsolu. auto. Qed.
Lemma der_lim0 : forall f l, derivable_pt_lim f 0 l -> lim0 (fun h => f h - f 0).
Proof.
  intros f l D. destruct (D 1 Rlt_0_1) as (d & H). apply (lim0_le _ (fun h => (Rabs l + 1) * Rabs h)).
  - exists d. split; [apply cond_pos|]. intros h Hh. destruct (Req_dec h 0) as [->|N].
    + replace (f 0 - f 0) with 0 by ring. rewrite Rabs_R0. lra.
    + specialize (H h N Hh). rewrite Rplus_0_l in H. replace (f h - f 0) with ((f h - f 0) / h * h) by (field; auto). rewrite Rabs_mult. apply Rmult_le_compat_r; [apply Rabs_pos|].
      replace ((f h - f 0) / h) with (((f h - f 0) / h - l) + l) by ring. pose proof (Rabs_triang ((f h - f 0) / h - l) l). lra.
  - apply lim0_scal. intros eps E. exists eps. split; auto. intros h Hh. rewrite Rabs_Rabsolu. auto.
Qed.
(* equal near 0 *)
Lemma der_near : forall f g l, near (fun h => f h = g h) -> derivable_pt_lim f 0 l -> derivable_pt_lim g 0 l.
Proof.
  intros f g l N D eps E. pose proof (near_0 _ N) as E0. destruct N as (d1 & p1 & H1). destruct (D eps E) as (d2 & H2). assert (P : 0 < Rmin d1 d2) by (apply Rmin_glb_lt; [auto|apply cond_pos]).
  exists (mkposreal _ P). intros h Nh Hh. cbn in Hh. pose proof (Rmin_l d1 d2). pose proof (Rmin_r d1 d2). cbn beta in E0. rewrite Rplus_0_l, <- E0, <- H1 by lra. specialize (H2 h Nh). rewrite Rplus_0_l in H2. apply H2. lra.
Qed.
(* a continuous factor of something that vanishes *)
Lemma der_cont0 : forall g f l, lim0 (fun h => g h - g 0) -> f 0 = 0 -> derivable_pt_lim f 0 l -> derivable_pt_lim (fun h => g h * f h) 0 (g 0 * l).
Proof.
  intros g f l G F0 D. assert (L : lim0 (fun h => if Req_EM_T h 0 then 0 else f h / h - l)).
  { intros eps E. destruct (D eps E) as (d & H). exists d. split; [apply cond_pos|]. intros h Hh. destruct (Req_EM_T h 0) as [->|N]; [rewrite Rabs_R0; auto|]. specialize (H h N Hh). rewrite Rplus_0_l, F0, Rminus_0_r in H. auto. }
  assert (L2 : lim0 (fun h => (Rabs (g 0) + 1) * Rabs (if Req_EM_T h 0 then 0 else f h / h - l) + Rabs l * Rabs (g h - g 0))) by (apply lim0_plus; apply lim0_scal; apply lim0_abs; auto).
  intros eps E. destruct (near_and _ _ (L2 eps E) (G 1 Rlt_0_1)) as (d & p & H). exists (mkposreal d p). intros h N Hh. cbn in Hh. rewrite Rplus_0_l, F0, Rmult_0_r, Rminus_0_r. specialize (H h Hh). cbn beta in H. destruct H as (H & H1). destruct (Req_EM_T h 0) as [|_]; [contradiction|].
  replace (g h * f h / h - g 0 * l) with (g h * (f h / h - l) + l * (g h - g 0)) by (field; auto). eapply Rle_lt_trans; [apply Rabs_triang|]. rewrite !Rabs_mult.
  apply Rle_lt_trans with ((Rabs (g 0) + 1) * Rabs (f h / h - l) + Rabs l * Rabs (g h - g 0)).
  - apply Rplus_le_compat_r. apply Rmult_le_compat_r; [apply Rabs_pos|]. replace (g h) with (g 0 + (g h - g 0)) by ring. pose proof (Rabs_triang (g 0) (g h - g 0)). lra.
  - eapply Rle_lt_trans; [apply Rle_abs|]. exact H.
Qed.

Lemma ksum_le : forall n (f g : nat -> R), (forall i, (i < n)%nat -> f i <= g i) -> ksum n f <= ksum n g.
Proof. induction n; intros f g H; cbn [ksum]; [apply Rle_refl|]. apply Rplus_le_compat; [apply IHn; auto|apply H; lia]. Qed.
Lemma ksum_abs : forall n (f : nat -> R), Rabs (ksum n f) <= ksum n (fun i => Rabs (f i)).
Proof. induction n; intros f; cbn [ksum]; [right; apply Rabs_R0|]. eapply Rle_trans; [apply Rabs_triang|]. apply Rplus_le_compat_r. apply IHn. Qed.
Lemma ksum_ge1 : forall n (f : nat -> R) i, (i < n)%nat -> (forall k, (k < n)%nat -> 0 <= f k) -> f i <= ksum n f.
Proof.
  assert (P : forall n (f : nat -> R), (forall k, (k < n)%nat -> 0 <= f k) -> 0 <= ksum n f).
  { induction n; intros f H; cbn [ksum]; [apply Rle_refl|]. change (0 <= ksum n f + f n). pose proof (H n (Nat.lt_succ_diag_r n)). assert (0 <= ksum n f) by (apply IHn; auto). lra. }
  induction n; intros f i Hi H; [lia|]. cbn [ksum]. change (f i <= ksum n f + f n). destruct (Nat.eq_dec i n) as [->|N].
  - assert (0 <= ksum n f) by (apply P; auto). lra.
  - assert (f i <= ksum n f) by (apply IHn; auto; lia). pose proof (H n (Nat.lt_succ_diag_r n)). lra.
Qed.
Lemma ksum_pos : forall n (f : nat -> R), (forall k, (k < n)%nat -> 0 <= f k) -> 0 <= ksum n f.
Proof. induction n; intros f H; cbn [ksum]; [apply Rle_refl|]. change (0 <= ksum n f + f n). pose proof (H n (Nat.lt_succ_diag_r n)). assert (0 <= ksum n f) by (apply IHn; auto). lra. Qed.

Definition inverse (n : nat) (A B : mat R) : Prop := meq n n (mmul n A B) mid /\ meq n n (mmul n B A) mid.
Definition asum (n : nat) (A : mat R) : R := ksum n (fun i => ksum n (fun j => Rabs (A i j))).
Lemma asum_ge : forall n A i j, (i < n)%nat -> (j < n)%nat -> Rabs (A i j) <= asum n A.
Proof.
  intros n A i j Hi Hj. unfold asum. eapply Rle_trans; [|apply (ksum_ge1 n (fun i => ksum n (fun j => Rabs (A i j))) i); auto].
  - cbn beta. apply (ksum_ge1 n (fun j => Rabs (A i j)) j); auto. intros. apply Rabs_pos.
  - intros. apply ksum_pos. intros. apply Rabs_pos.
Qed.
Lemma asum_pos : forall n A, 0 <= asum n A.
Proof. intros. apply ksum_pos. intros. apply ksum_pos. intros. apply Rabs_pos. Qed.

Section Inv.
  Variables (n : nat) (F B : R -> mat R) (T : mat R).
  Hypothesis HI : near (fun h => inverse n (F h) (B h)).
  Hypothesis HF : forall i j, (i < n)%nat -> (j < n)%nat -> derivable_pt_lim (fun h => F h i j) 0 (T i j).
  Let D (h : R) : mat R := fun i j => F h i j - F 0 i j.
  Let Q (h : R) : mat R := fun i j => ksum n (fun k => ksum n (fun l => B h i k * D h k l * B 0 l j)).

  Lemma inv_step : near (fun h => forall i j, (i < n)%nat -> (j < n)%nat -> B h i j = B 0 i j - Q h i j).
  Proof.
    pose proof (near_0 _ HI) as (H0 & _). cbn beta in H0. eapply near_impl; [|exact HI]. intros h (_ & H2) i j Hi Hj. cbn beta in *.
    assert (E1 : ksum n (fun k => B h i k * ksum n (fun l => F 0 k l * B 0 l j)) = B h i j).
    { transitivity (ksum n (fun k => @kmul R RRing (B h i k) (delta k j))); [|exact (ksum_delta_r n j (B h i) Hj)]. apply ksum_ext. intros k Hk. exact (f_equal (Rmult (B h i k)) (H0 k j Hk Hj)). }
    assert (E2 : ksum n (fun l => ksum n (fun k => B h i k * F h k l) * B 0 l j) = B 0 i j).
    { transitivity (ksum n (fun l => @kmul R RRing (delta i l) (B 0 l j))); [|exact (ksum_delta_l n i (fun l => B 0 l j) Hi)]. apply ksum_ext. intros l Hl. exact (f_equal (fun x => x * B 0 l j) (H2 i l Hi Hl)). }
    assert (E3 : ksum n (fun k => ksum n (fun l => B h i k * F h k l * B 0 l j)) = B 0 i j).
    { rewrite (ksum_swap n n). rewrite <- E2. apply ksum_ext. intros l Hl. exact (ksum_mul_r n (B 0 l j) (fun k => B h i k * F h k l)). }
    assert (E4 : ksum n (fun k => ksum n (fun l => B h i k * F 0 k l * B 0 l j)) = B h i j).
    { rewrite <- E1. apply ksum_ext. intros k Hk. transitivity (ksum n (fun l => B h i k * (F 0 k l * B 0 l j))); [apply ksum_ext; intros l Hl; ring|]. exact (ksum_mul_l n (B h i k) (fun l => F 0 k l * B 0 l j)). }
    assert (E5 : Q h i j = B 0 i j - B h i j); [|rewrite E5; ring].
    rewrite <- E3, <- E4. unfold Q, D. etransitivity; [|exact (ksum_sub n (fun k => ksum n (fun l => B h i k * F h k l * B 0 l j)) (fun k => ksum n (fun l => B h i k * F 0 k l * B 0 l j)))].
    apply ksum_ext. intros k Hk. etransitivity; [|exact (ksum_sub n (fun l => B h i k * F h k l * B 0 l j) (fun l => B h i k * F 0 k l * B 0 l j))]. apply ksum_ext. intros l Hl. cbn. ring.
  Qed.
  Lemma D_lim : lim0 (fun h => asum n (D h)).
  Proof. unfold asum. apply (lim0_ksum n). intros i Hi. apply (lim0_ksum n). intros j Hj. apply lim0_abs. apply (der_lim0 _ _ (HF i j Hi Hj)). Qed.
  Lemma ksum_const : forall m c, ksum m (fun _ => c) = INR m * c.
  Proof. induction m as [|m IH]; intros c; [cbn; ring|]. rewrite S_INR. cbn [ksum]. rewrite IH. cbn. ring. Qed.
  Lemma Q_bound : forall h i j, (i < n)%nat -> (j < n)%nat -> Rabs (Q h i j) <= INR n * (INR n * (asum n (B h) * asum n (D h) * asum n (B 0))).
  Proof.
    intros h i j Hi Hj. unfold Q. eapply Rle_trans; [apply ksum_abs|]. rewrite <- (ksum_const n). apply ksum_le. intros k Hk. eapply Rle_trans; [apply ksum_abs|]. rewrite <- (ksum_const n). apply ksum_le. intros l Hl.
    rewrite !Rabs_mult. apply Rmult_le_compat; [apply Rmult_le_pos; apply Rabs_pos|apply Rabs_pos| |apply asum_ge; auto]. apply Rmult_le_compat; try apply Rabs_pos; apply asum_ge; auto.
  Qed.
  Let C : R := INR n * INR n * asum n (B 0).
  Lemma C_pos : 0 <= C.
  Proof. unfold C. apply Rmult_le_pos; [apply Rmult_le_pos; apply pos_INR|apply asum_pos]. Qed.
  Lemma B_bound : near (fun h => asum n (B h) <= 2 * asum n (B 0)).
  Proof.
    pose proof C_pos as CP. assert (N2 : 0 <= INR n * INR n) by (apply Rmult_le_pos; apply pos_INR).
    assert (E : 0 < / (2 * (INR n * INR n * C + 1))) by (apply Rinv_0_lt_compat; assert (0 <= INR n * INR n * C) by (apply Rmult_le_pos; auto); lra).
    eapply near_impl; [|apply (near_and _ _ inv_step (lim0_near _ _ D_lim E))]. intros h (H & HD). cbn beta in *. rewrite Rabs_right in HD by (apply Rle_ge, asum_pos).
    assert (A : asum n (B h) <= asum n (B 0) + INR n * (INR n * (C * asum n (B h) * asum n (D h)))).
    { apply Rle_trans with (ksum n (fun i => ksum n (fun j => Rabs (B 0 i j) + C * asum n (B h) * asum n (D h)))).
      - apply ksum_le. intros i Hi. apply ksum_le. intros j Hj. rewrite H by auto. unfold Rminus. eapply Rle_trans; [apply Rabs_triang|]. rewrite Rabs_Ropp. apply Rplus_le_compat_l. eapply Rle_trans; [apply Q_bound; auto|]. right. unfold C. ring.
      - right. unfold asum at 3. rewrite <- (ksum_const n). etransitivity; [|exact (ksum_add n (fun i => ksum n (fun j => Rabs (B 0 i j))) (fun _ => INR n * (C * asum n (B h) * asum n (D h))))].
        apply ksum_ext. intros i Hi. rewrite <- (ksum_const n). exact (ksum_add n (fun j => Rabs (B 0 i j)) (fun _ => C * asum n (B h) * asum n (D h))). }
    assert (P : INR n * INR n * C * asum n (D h) <= / 2).
    { assert (Z : 0 <= INR n * INR n * C) by (apply Rmult_le_pos; auto). apply Rle_trans with ((INR n * INR n * C + 1) * / (2 * (INR n * INR n * C + 1))).
      - apply Rmult_le_compat; [auto|apply asum_pos|lra|lra].
      - right. field. lra. }
    pose proof (asum_pos n (B h)) as PB. assert (asum n (B h) * (INR n * INR n * C * asum n (D h)) <= asum n (B h) * / 2) by (apply Rmult_le_compat_l; auto). lra.
  Qed.
  Lemma B_cont : forall i j, (i < n)%nat -> (j < n)%nat -> lim0 (fun h => B h i j - B 0 i j).
  Proof.
    intros i j Hi Hj. apply (lim0_le _ (fun h => (C * (2 * asum n (B 0))) * asum n (D h))); [|apply lim0_scal, D_lim].
    eapply near_impl; [|apply (near_and _ _ inv_step B_bound)]. intros h (H & HB). cbn beta in *. rewrite H by auto. replace (B 0 i j - Q h i j - B 0 i j) with (- Q h i j) by ring. rewrite Rabs_Ropp.
    eapply Rle_trans; [apply Q_bound; auto|]. replace (INR n * (INR n * (asum n (B h) * asum n (D h) * asum n (B 0)))) with (C * asum n (B h) * asum n (D h)) by (unfold C; ring).
    apply Rmult_le_compat_r; [apply asum_pos|]. apply Rmult_le_compat_l; [apply C_pos|auto].
  Qed.
  Lemma der_inverse : forall i j, (i < n)%nat -> (j < n)%nat ->
    derivable_pt_lim (fun h => B h i j) 0 (- ksum n (fun k => ksum n (fun l => B 0 i k * T k l * B 0 l j))).
  Proof.
    intros i j Hi Hj. apply (der_near (fun h => B 0 i j - Q h i j)).
    - eapply near_impl; [|exact inv_step]. intros h H. cbn beta in *. symmetry. auto.
    - eapply der_eq; [|apply der_minus; [apply der_const|]].
      2:{ unfold Q. apply der_ksum. intros k Hk. apply der_ksum. intros l Hl. apply (der_ext (fun h => (B h i k * B 0 l j) * D h k l)); [intros; ring|].
          apply (der_cont0 (fun h => B h i k * B 0 l j) (fun h => D h k l) (T k l)).
          - apply near_lim0. intros eps E. pose proof (lim0_scal _ (B 0 l j) (B_cont i k Hi Hk)) as L. destruct (L eps E) as (d & p & HH). exists d. split; auto. intros h Hh. specialize (HH h Hh). replace (B h i k * B 0 l j - B 0 i k * B 0 l j) with (B 0 l j * (B h i k - B 0 i k)) by ring. auto.
          - unfold D. ring.
          - unfold D. eapply der_eq; [|apply der_minus; [apply HF; auto|apply der_const]]. ring. }
      cbn beta. rewrite Rminus_0_l. apply f_equal. apply ksum_ext. intros k Hk. apply ksum_ext. intros l Hl. ring.
  Qed.
End Inv.
