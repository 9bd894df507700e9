(** * The tutorial: proofs about the construction of the problem *)
From Coq Require Import Arith Lia List ZArith Bool Reals Lra.
From Verif Require Import Lib_Ring Lib_Real Lib_Res MatrixStack_Model DesignVar_Base Jacobian_Model Scalar_Model Terms_Model Terms_Spec Tut_Model Tut_Spec.
Import ListNotations.
Local Open Scope R_scope.

Lemma for_inv : forall A (P : nat -> A -> Prop) n a (body : nat -> A -> res A) x, P a x -> (forall k y, (a <= k < a + n)%nat -> P k y -> exists y', body k y = Ok y' /\ P (S k) y') ->
  exists z, for_ n a body x = Ok z /\ P (a + n)%nat z.
Proof.
  intros A P n. induction n; intros a body x H0 HS; cbn [for_]; [exists x; rewrite Nat.add_0_r; auto|].
  destruct (HS a x ltac:(lia) H0) as (y & E & Hy). rewrite E. cbn [bind]. replace (a + S n)%nat with (S a + n)%nat by lia. apply IHn; auto. intros k z Hk. apply HS. lia.
Qed.
Lemma set_nth_len : forall v k x, length (set_nth v k x) = length v.
Proof. induction v; intros [|k] x; cbn; auto. Qed.
Lemma set_nth_at : forall v k x i, (k < length v)%nat -> nth_error (set_nth v k x) i = if (i =? k)%nat then Some x else nth_error v i.
Proof.
  induction v; intros k x i H; cbn in H; [lia|]. destruct k, i; cbn; auto. rewrite IHv by lia. reflexivity.
Qed.
(* the first k entries of a vector of length n are those of f *)
Definition filled (n : nat) (f : nat -> R) (k : nat) (v : list R) : Prop := length v = n /\ forall i, (i < k)%nat -> nth_error v i = Some (f i).
Lemma at_filled : forall n f k v i, filled n f k v -> (i < k)%nat -> at_ v i = Ok (f i).
Proof. intros n f k v i [_ H] Hi. unfold at_. now rewrite H. Qed.
Lemma put_filled : forall n f k v, (k < n)%nat -> filled n f k v -> exists v', put v k (f k) = Ok v' /\ filled n f (S k) v'.
Proof.
  intros n f k v H [L F]. unfold put. rewrite L. rewrite (proj2 (Nat.ltb_lt _ _) H). eexists. split; [reflexivity|]. split; [now rewrite set_nth_len|].
  intros i Hi. rewrite set_nth_at by lia. destruct (i =? k)%nat eqn:E; [apply Nat.eqb_eq in E; now subst|]. apply Nat.eqb_neq in E. apply F. lia.
Qed.
Lemma new_filled : forall K, (0 <= K)%Z -> exists v, vector_new K = Ok v /\ forall f, filled (Z.to_nat K) f 0 v.
Proof. intros K H. unfold vector_new. rewrite (proj2 (Z.ltb_ge _ _)) by lia. eexists. split; [reflexivity|]. intros f. split; [apply repeat_length|]. intros; lia. Qed.
Lemma sum_nonneg : forall a k, (forall i, 0 <= a i) -> 0 <= sum_to a k.
Proof. intros a k H. induction k; cbn; [lra|]. specialize (H (S k)). lra. Qed.

Definition steps (nz : noise) (n : nat) : list term :=
  flat_map (fun k => [TMotion (position (k - 1)) (position k) (odometry nz k) (sigma_u * sigma_u); TObservation (position k) wall (measurement nz k) (sigma_n * sigma_n)]) (seq 1 n).
Definition terms_of (nz : noise) (n : nat) : list term := TPrior (position 0) 0 (sigma_x * sigma_x) :: steps nz (n - 1).
Definition start_of (nz : noise) (n : nat) (s : state) : Prop := s 0%nat 0%nat = true_w + n_wall nz /\ forall k, (k < n)%nat -> s (S k) 0%nat = sum_to (odometry nz) k.
Lemma steps_snoc : forall nz n, steps nz (S n) = steps nz n ++ [TMotion (position n) (position (S n)) (odometry nz (S n)) (sigma_u * sigma_u); TObservation (position (S n)) wall (measurement nz (S n)) (sigma_n * sigma_n)].
Proof. intros nz n. unfold steps. rewrite seq_S, flat_map_app. cbn [flat_map Nat.add]. rewrite Nat.sub_succ, Nat.sub_0_r. reflexivity. Qed.
Lemma built : forall nz K, (1 <= K)%Z -> forward nz -> exists p, build nz K = Ok p /\ p_dvs p = wall :: map position (seq 0 (Z.to_nat K)) /\ p_terms p = terms_of nz (Z.to_nat K) /\ start_of nz (Z.to_nat K) (p_start p).
Proof.
  intros nz K HK F. unfold build. set (n := Z.to_nat K). assert (Hn : (1 <= n)%nat) by (unfold n; lia).
  destruct (new_filled K ltac:(lia)) as (v1 & -> & V0). cbn [bind]. fold n in V0.
  destruct (for_inv _ (filled n (n_uniform nz)) n 0 (fun k v => put v k (n_uniform nz k)) v1 (V0 _)) as (tu & -> & TU).
  { intros k y Hk Hy. apply put_filled; auto. lia. }
  cbn [bind Nat.add] in *.
  match goal with |- context [for_ n 0 ?b v1] => destruct (for_inv _ (filled n (odometry nz)) n 0 b v1 (V0 _)) as (u & -> & UU) end.
  { intros k y Hk Hy. rewrite (at_filled _ _ _ _ _ TU) by lia. cbn [bind]. apply (put_filled n (odometry nz)); auto. lia. }
  cbn [bind Nat.add] in *.
  destruct (put_filled n (sum_to (odometry nz)) 0 v1 ltac:(lia) (V0 _)) as (v5 & E5 & V5). destruct (put_filled n (truth nz) 0 v1 ltac:(lia) (V0 _)) as (v6 & E6 & V6).
  cbn [sum_to truth] in E5, E6. unfold truth in E6. cbn [sum_to] in E6. rewrite E5. cbn [bind]. assert (v5 = v6) by congruence. subst v6. clear E6. cbn [bind].
  match goal with |- context [for_ (n - 1) 1 ?b (v5, v5)] => destruct (for_inv _ (fun k xs => filled n (sum_to (odometry nz)) k (fst xs) /\ filled n (truth nz) k (snd xs)) (n - 1) 1 b (v5, v5) (conj V5 V6)) as ((xk & tx) & -> & XK & TX) end.
  { intros k [x t] Hk [Hx Ht]. cbn [fst snd] in *. rewrite (at_filled _ _ _ _ _ Ht) by lia. cbn [bind]. rewrite (at_filled _ _ _ _ _ TU) by lia. cbn [bind].
    destruct k as [|k]; [lia|]. rewrite Nat.sub_succ, Nat.sub_0_r.
    destruct (put_filled n (truth nz) (S k) t ltac:(lia) Ht) as (t' & Et & Ht'). change (truth nz k + n_uniform nz (S k)) with (truth nz (S k)). rewrite Et. cbn [bind].
    rewrite (at_filled _ _ _ _ _ Hx) by lia. cbn [bind]. rewrite (at_filled _ _ _ _ _ UU) by lia. cbn [bind].
    destruct (put_filled n (sum_to (odometry nz)) (S k) x ltac:(lia) Hx) as (x' & Ex & Hx'). change (sum_to (odometry nz) k + odometry nz (S k)) with (sum_to (odometry nz) (S k)). rewrite Ex. cbn [bind].
    eexists. split; [reflexivity|]. auto. }
  cbn [bind fst snd]. replace (1 + (n - 1))%nat with n in XK, TX by lia. cbn [fst snd] in XK, TX.
    match goal with |- context [for_ n 0 ?b v1] => destruct (for_inv _ (filled n (measurement nz)) n 0 b v1 (V0 _)) as (y & -> & YY) end.
  { intros k v Hk Hv. rewrite (at_filled _ _ _ _ _ TX) by lia. cbn [bind]. unfold fdiv. destruct (Req_EM_T (true_w - truth nz k) 0) as [Z|Z].
    - exfalso. pose proof (sum_nonneg (n_uniform nz) k F) as P. fold (truth nz k) in P. unfold true_w in Z. lra.
    - cbn [bind]. change (1 / (true_w - truth nz k) + sigma_n * n_measurement nz k) with (measurement nz k). apply (put_filled n (measurement nz)); auto. lia. }
  cbn [bind Nat.add] in *. rewrite (at_filled _ _ _ _ _ XK) by lia. cbn [bind]. rewrite (at_filled _ _ _ _ _ TX) by lia. cbn [bind].
  match goal with |- context [for_ (n - 1) 1 ?b ?z] => destruct (for_inv _ (fun k pd => snd pd = position (k - 1) /\ p_dvs (fst pd) = wall :: map position (seq 0 k) /\ p_terms (fst pd) = terms_of nz k /\ start_of nz k (p_start (fst pd))) (n - 1) 1 b z) as ((p & d) & -> & D & P1 & P2 & P3) end.
  - cbn [snd fst]. split; [reflexivity|]. split; [reflexivity|]. split; [reflexivity|]. split; [reflexivity|]. intros k Hk. assert (k = 0%nat) by lia. subst. reflexivity.
  - intros k [p d] Hk (D & P1 & P2 & P3). cbn [fst snd] in *. subst d. rewrite (at_filled _ _ _ _ _ XK) by lia. cbn [bind]. rewrite (at_filled _ _ _ _ _ UU) by lia. cbn [bind]. rewrite (at_filled _ _ _ _ _ YY) by lia. cbn [bind].
    assert (N : new_dv p = position k) by (unfold new_dv, position; rewrite P1; cbn [length]; rewrite map_length, seq_length; reflexivity).
    eexists. split; [reflexivity|]. cbn [fst snd p_dvs p_terms p_start add_dv add_term]. rewrite N, P1, P2. split; [rewrite Nat.sub_succ, Nat.sub_0_r; reflexivity|].
    split; [rewrite seq_S, map_app; reflexivity|]. split.
    + unfold terms_of. destruct k as [|k]; [lia|]. rewrite !Nat.sub_succ, !Nat.sub_0_r, steps_snoc. cbn [app]. rewrite <- app_assoc. reflexivity.
    + destruct P3 as [Q1 Q2]. split; [exact Q1|]. intros i Hi. unfold position. cbn [dv_id]. change (S i =? S k)%nat with (i =? k)%nat. destruct (i =? k)%nat eqn:E; [apply Nat.eqb_eq in E; now subst|]. apply Nat.eqb_neq in E. apply Q2. lia.
  - cbn [bind fst snd] in *. replace (1 + (n - 1))%nat with n in P1, P2, P3 by lia. exists p. auto.
Qed.
