(** * The tutorial: proofs about the problem *)
From Coq Require Import Arith Lia List ZArith Bool Reals Lra.
From Verif Require Import Lib_Ring Lib_Real Lib_Res MatrixStack_Model DesignVar_Base Jacobian_Model Jacobian_Spec Scalar_Model Scalar_Spec Terms_Model Terms_Spec Terms_Proofs Tut_Model Tut_Spec Tut_Proofs.
Import ListNotations.
Local Open Scope R_scope.

Lemma main_builds : forall nz K, (1 <= K)%Z -> forward nz -> exists p, main 2 K nz = Ok (Optimise p) /\ tutorial_problem nz (Z.to_nat K) p.
Proof. intros nz K HK F. destruct (built nz K HK F) as (p & E & D & T & S1 & S2). exists p. unfold main. cbn. rewrite E. split; [reflexivity|]. split; [exact D|]. split; [exact T|]. split; [exact S1|exact S2]. Qed.
Lemma main_other : forall nz argc K, (argc <> 2 -> main argc K nz = Ok (Ends 1))%Z /\ (K < 0 -> main 2 K nz = Ok (Ends 1))%Z.
Proof.
  intros nz argc K. split; intros H; unfold main.
  - rewrite (proj2 (Z.eqb_neq _ _) H). reflexivity.
  - cbn. unfold build, vector_new. rewrite (proj2 (Z.ltb_lt _ _) H). reflexivity.
Qed.
Lemma main_zero : forall nz, main 2 0 nz = UB.
Proof. reflexivity. Qed.

Lemma in_terms : forall nz K p t, tutorial_problem nz K p -> In t (p_terms p) <-> t = TPrior (position 0) (truth nz 0) (sigma_x * sigma_x) \/ exists k, (1 <= k < K)%nat /\ (t = motion_at nz k \/ t = observation_at nz k).
Proof.
  intros nz K p t (_ & T & _). rewrite T. cbn [In]. rewrite in_flat_map. split.
  - intros [<-|(k & Hk & H)]; [now left|]. right. exists k. apply in_seq in Hk. split; [lia|]. cbn in H. intuition.
  - intros [->|(k & Hk & H)]; [now left|]. right. exists k. split; [apply in_seq; lia|]. cbn. intuition.
Qed.
Lemma in_motion : forall nz K p k, tutorial_problem nz K p -> (1 <= k < K)%nat -> In (motion_at nz k) (p_terms p).
Proof. intros nz K p k H Hk. apply (in_terms nz K p _ H). right. exists k. auto. Qed.
Lemma in_observation : forall nz K p k, tutorial_problem nz K p -> (1 <= k < K)%nat -> In (observation_at nz k) (p_terms p).
Proof. intros nz K p k H Hk. apply (in_terms nz K p _ H). right. exists k. auto. Qed.
Lemma in_dvs : forall nz K p d, tutorial_problem nz K p -> In d (p_dvs p) <-> d = wall \/ exists k, (k < K)%nat /\ d = position k.
Proof.
  intros nz K p d (D & _). rewrite D. cbn [In]. rewrite in_map_iff. split.
  - intros [<-|(k & <- & Hk)]; [now left|]. right. exists k. apply in_seq in Hk. split; [lia|auto].
  - intros [->|(k & Hk & ->)]; [now left|]. right. exists k. split; [auto|apply in_seq; lia].
Qed.
Lemma well_formed : forall nz K p, (1 <= K)%nat -> tutorial_problem nz K p -> NoDup (map dv_id (p_dvs p)) /\ Forall (fun d => dv_active d = true) (p_dvs p) /\ length (p_dvs p) = S K /\
  length (p_terms p) = (2 * K - 1)%nat /\ forall t, In t (p_terms p) -> NoDup (map dv_id (term_dvs t)) /\ incl (term_dvs t) (p_dvs p).
Proof.
  intros nz K p HK H. pose proof H as (D & T & _). split; [|split; [|split; [|split]]].
  - rewrite D. cbn [map]. rewrite map_map. cbn [dv_id wall position]. constructor; [rewrite in_map_iff; intros (k & E & _); discriminate|]. apply FinFun.Injective_map_NoDup; [intros a b E; now injection E|apply seq_NoDup].
  - apply Forall_forall. intros d Hd. apply (in_dvs nz K p d H) in Hd. destruct Hd as [->|(k & _ & ->)]; reflexivity.
  - rewrite D. cbn [length]. now rewrite map_length, seq_length.
  - rewrite T. cbn [length]. assert (L : forall l, length (flat_map (fun k => [motion_at nz k; observation_at nz k]) l) = (2 * length l)%nat) by (induction l as [|a l IH]; cbn [flat_map app length]; [auto|rewrite IH; lia]).
    rewrite L, seq_length. lia.
  - intros t Ht. apply (in_terms nz K p t H) in Ht. assert (I1 : forall d, In d (p_dvs p) <-> d = wall \/ exists k, (k < K)%nat /\ d = position k) by (intros; now apply (in_dvs nz)).
    destruct Ht as [->|(k & Hk & [-> | ->])]; cbn [term_dvs motion_at observation_at map dv_id position wall].
    + split; [constructor; [intros []|constructor]|]. intros d [<-|[]]. apply I1. right. exists 0%nat. split; [lia|auto].
    + split; [constructor; [intros [E|[]]; lia|constructor; [intros []|constructor]]|]. intros d [<-|[<-|[]]]; apply I1; right; eexists; (split; [|reflexivity]); lia.
    + split; [constructor; [intros [E|[]]; lia|constructor; [intros []|constructor]]|]. intros d [<-|[<-|[]]]; apply I1; [right; exists k; split; [lia|auto]|now left].
Qed.
Lemma scal : forall l, (forall d, In d l -> d = wall \/ exists k, d = position k) -> scalars l.
Proof.
  intros l H. split; [split; [|split]|].
  - intros a b Ha Hb E. destruct (H a Ha) as [->|(i & ->)], (H b Hb) as [->|(j & ->)]; cbn in E; try discriminate; auto; injection E as ->; auto.
  - intros d Hd _. destruct (H d Hd) as [->|(i & ->)]; cbn [dv_block wall position]; lia.
  - intros a b Ha Hb _ _ E. destruct (H a Ha) as [->|(i & ->)], (H b Hb) as [->|(j & ->)]; cbn [dv_block wall position] in E; try lia; auto. assert (i = j) by lia. now subst.
  - intros d Hd. destruct (H d Hd) as [->|(i & ->)]; reflexivity.
Qed.
Lemma tutorial_jacobians : forall nz K p al s t, tutorial_problem nz K p -> (0 < al)%nat -> off_wall K s -> In t (p_terms p) -> jacobians_right al (term_dvs t) (term_error t) (term_calls t) s.
Proof.
  intros nz K p al s t H A O Ht. apply (in_terms nz K p t H) in Ht. destruct Ht as [->|(k & Hk & [-> | ->])]; cbn [term_dvs].
  - apply prior_right; auto. apply scal. intros d [<-|[]]. eauto.
  - apply motion_right; auto. apply scal. intros d [<-|[<-|[]]]; eauto.
  - apply observation_right; auto. apply scal. intros d [<-|[<-|[]]]; eauto.
Qed.

(** the minimum *)
Lemma chi_nonneg : forall s2 e c, 0 < s2 -> chi_squared s2 e = Ok c -> 0 <= c /\ (c = 0 -> e = 0).
Proof.
  intros s2 e c H E. unfold chi_squared, fdiv in E. destruct (Req_EM_T s2 0); [lra|]. cbn [bind] in E. injection E as <-. replace (e * (1 / s2) * e) with (/ s2 * (e * e)) by (field; lra).
  pose proof (Rinv_0_lt_compat s2 H) as P. pose proof (Rle_0_sqr e) as Q. unfold Rsqr in Q. split; [apply Rmult_le_pos; lra|]. intros Z. apply Rmult_integral in Z. destruct Z as [Z|Z]; [lra|]. apply Rmult_integral in Z. destruct Z; auto.
Qed.
Lemma sigma_pos : forall nz K p t, tutorial_problem nz K p -> In t (p_terms p) -> 0 < term_sigma2 t.
Proof. intros nz K p t H Ht. apply (in_terms nz K p t H) in Ht. unfold sigma_x, sigma_u, sigma_n in *. destruct Ht as [->|(k & Hk & [-> | ->])]; cbn [term_sigma2 motion_at observation_at]; unfold sigma_u, sigma_n; lra. Qed.
Lemma total_zero : forall ts s c, (forall t, In t ts -> 0 < term_sigma2 t) -> total_cost ts s = Ok c -> 0 <= c /\ (c = 0 -> forall t, In t ts -> term_error t s = Ok 0).
Proof.
  induction ts as [|t ts IH]; intros s c P E; cbn [total_cost] in E.
  - injection E as <-. split; [lra|]. intros _ t [].
  - destruct (term_cost t s) as [a| |] eqn:Ea; cbn [bind] in E; try discriminate. destruct (total_cost ts s) as [b| |] eqn:Eb; cbn [bind] in E; try discriminate. injection E as <-.
    unfold term_cost in Ea. destruct (term_error t s) as [e| |] eqn:Ee; cbn [bind] in Ea; try discriminate.
    destruct (chi_nonneg _ _ _ (P t (or_introl eq_refl)) Ea) as [A1 A2]. destruct (IH s b (fun t' H => P t' (or_intror H)) Eb) as [B1 B2]. split; [lra|].
    intros Z t' [<-|H]; [rewrite Ee, A2; [reflexivity|lra]|apply B2; auto; lra].
Qed.
Lemma truth_gap : forall nz k, forward nz -> true_w - truth nz k < 0.
Proof. intros nz k F. pose proof (sum_nonneg (n_uniform nz) k F) as P. fold (truth nz k) in P. unfold true_w. lra. Qed.
Lemma total_all : forall ts s, (forall t, In t ts -> 0 < term_sigma2 t) -> (forall t, In t ts -> term_error t s = Ok 0) -> total_cost ts s = Ok 0.
Proof.
  induction ts as [|t ts IH]; intros s P E; cbn [total_cost]; [auto|]. unfold term_cost. rewrite E by now left. cbn [bind]. unfold chi_squared, fdiv.
  destruct (Req_EM_T (term_sigma2 t) 0) as [Z|Z]; [specialize (P t (or_introl eq_refl)); lra|]. cbn [bind]. rewrite IH; [|intros; apply P; now right|intros; apply E; now right]. cbn [bind]. f_equal. lra.
Qed.
Lemma truth_is_minimum : forall nz K p, tutorial_problem nz K p -> (2 <= K)%nat -> forward nz -> noise_free nz ->
  total_cost (p_terms p) (true_state nz) = Ok 0 /\
  forall s c, total_cost (p_terms p) s = Ok c -> 0 <= c /\ (c = 0 <-> forall d, In d (p_dvs p) -> xval d s = xval d (true_state nz)).
Proof.
  intros nz K p H HK F N.
  assert (T0 : forall s, (forall d, In d (p_dvs p) -> xval d s = xval d (true_state nz)) -> forall t, In t (p_terms p) -> term_error t s = Ok 0).
  { intros s V t Ht. apply (in_terms nz K p t H) in Ht. assert (W : xval wall s = true_w) by (apply (V wall); apply (in_dvs nz K p wall H); now left).
    assert (X : forall k, (k < K)%nat -> xval (position k) s = truth nz k) by (intros k Hk; apply (V (position k)); apply (in_dvs nz K p _ H); eauto).
    destruct Ht as [->|(k & Hk & [-> | ->])]; cbn [term_error motion_at observation_at].
    - unfold prior_error. rewrite X by lia. f_equal. lra.
    - unfold motion_error. rewrite !X by lia. destruct k as [|k]; [lia|]. rewrite Nat.sub_succ, Nat.sub_0_r. f_equal. unfold odometry, truth. cbn [sum_to]. rewrite (proj1 (N (S k))). lra.
    - unfold observation_error. rewrite W, X by lia. unfold fdiv. pose proof (truth_gap nz k F) as G. destruct (Req_EM_T (true_w - truth nz k) 0); [lra|]. cbn [bind]. f_equal. unfold measurement. rewrite (proj2 (N k)). lra. }
  split; [apply total_all; [intros t Ht; exact (sigma_pos nz K p t H Ht)|apply T0; auto]|].
  intros s c E. destruct (total_zero _ _ _ (fun t => sigma_pos nz K p t H) E) as [C1 C2]. split; auto. split.
  - intros Z. specialize (C2 Z).
    assert (X : forall k, (k < K)%nat -> xval (position k) s = truth nz k).
    { induction k; intros Hk.
      - assert (E0 := C2 _ (proj2 (in_terms nz K p _ H) (or_introl eq_refl))). cbn [term_error] in E0. unfold prior_error in E0. injection E0 as E0. lra.
      - assert (E1 := C2 (motion_at nz (S k)) (in_motion nz K p (S k) H ltac:(lia))). cbn [term_error motion_at] in E1. unfold motion_error in E1. injection E1 as E1.
        rewrite Nat.sub_0_r, IHk in E1 by lia. unfold odometry in E1. rewrite (proj1 (N (S k))) in E1. unfold truth in *. cbn [sum_to]. lra. }
    assert (W : xval wall s = true_w).
    { assert (E2 := C2 (observation_at nz 1) (in_observation nz K p 1 H ltac:(lia))). cbn [term_error observation_at] in E2. unfold observation_error, fdiv in E2.
      destruct (Req_EM_T (xval wall s - xval (position 1) s) 0) as [Q|Q]; [discriminate|]. cbn [bind] in E2. injection E2 as E2. rewrite (X 1%nat) in * by lia. unfold measurement in E2. rewrite (proj2 (N 1%nat)) in E2.
      pose proof (truth_gap nz 1 F) as G. assert (E3 : / (xval wall s - truth nz 1) = / (true_w - truth nz 1)) by lra.
      apply (f_equal Rinv) in E3. rewrite !Rinv_inv in E3. lra. }
    intros d Hd. apply (in_dvs nz K p d H) in Hd. destruct Hd as [->|(k & Hk & ->)]; [exact W|exact (X k Hk)].
  - intros V. rewrite (total_all _ s (fun t => sigma_pos nz K p t H) (T0 s V)) in E. now injection E.
Qed.

(** the rank of the Jacobian *)
Lemma full_rank : forall nz K p s delta, tutorial_problem nz K p -> (2 <= K)%nat -> off_wall K s ->
  (forall t, In t (p_terms p) -> exists ops, term_calls t s = Ok ops /\ row_times ops delta = 0) -> forall d, In d (p_dvs p) -> delta (dv_id d) = 0.
Proof.
  intros nz K p s delta H HK O J.
  assert (X : forall k, (k < K)%nat -> delta (S k) = 0).
  { induction k; intros Hk.
    - destruct (J _ (proj2 (in_terms nz K p _ H) (or_introl eq_refl))) as (ops & E & Z). cbn [term_calls] in E. unfold prior_calls in E. injection E as <-. cbn in Z. lra.
    - destruct (J (motion_at nz (S k)) (in_motion nz K p (S k) H ltac:(lia))) as (ops & E & Z). cbn [term_calls motion_at] in E. unfold motion_calls in E. injection E as <-.
      cbn [row_times fold_right one_by_one d_at dv_id position] in Z. replace (S k - 1)%nat with k in Z by lia; rewrite ?Nat.sub_0_r in Z; rewrite IHk in Z by lia; lra. }
  assert (W : delta 0%nat = 0).
  { destruct (J (observation_at nz 1) (in_observation nz K p 1 H ltac:(lia))) as (ops & E & Z). cbn [term_calls observation_at] in E. unfold observation_calls, fdiv in E.
    pose proof (O 1%nat ltac:(lia)) as Q. destruct (Req_EM_T (xval wall s - xval (position 1) s) 0) as [Q'|Q']; [lra|]. cbn [bind] in E. injection E as <-.
    cbn [row_times fold_right one_by_one d_at dv_id position wall] in Z. rewrite X in Z by lia. set (q := -1 / (xval wall s - xval (position 1) s)) in Z.
    assert (q <> 0) by (unfold q, Rdiv; apply Rmult_integral_contrapositive_currified; [lra|apply Rinv_neq_0_compat; lra]).
    assert (Z' : q * q * delta 0%nat = 0) by lra. apply Rmult_integral in Z'. destruct Z' as [Z'|Z']; [|exact Z']. apply Rmult_integral in Z'. tauto. }
  intros d Hd. apply (in_dvs nz K p d H) in Hd. destruct Hd as [->|(k & Hk & ->)]; [exact W|exact (X k Hk)].
Qed.
(* one time step: nothing is measured *)
Lemma one_step : forall nz p s s', tutorial_problem nz 1 p -> xval (position 0) s = xval (position 0) s' -> total_cost (p_terms p) s = total_cost (p_terms p) s'.
Proof. intros nz p s s' (_ & T & _) E. rewrite T. cbn [seq Nat.sub flat_map total_cost]. unfold term_cost. cbn [term_error]. unfold prior_error. now rewrite E. Qed.
(* the first guess of the wall may be at the first guess of a position *)
Lemma guess_on_wall : forall nz K p, tutorial_problem nz K p -> (2 <= K)%nat -> n_wall nz = sum_to (odometry nz) 1 - true_w -> total_cost (p_terms p) (p_start p) = UB.
Proof.
  intros nz K p (_ & T & W & X) HK E. rewrite T. destruct K as [|[|K]]; [lia|lia|]. cbn [Nat.sub seq flat_map app total_cost].
  assert (Q : xval wall (p_start p) - xval (position 1) (p_start p) = 0) by (rewrite W, X, E by lia; lra).
  assert (A : forall t, 0 < term_sigma2 t -> (exists e, term_error t (p_start p) = Ok e) -> exists c, term_cost t (p_start p) = Ok c).
  { intros t P (e & Ee). unfold term_cost. rewrite Ee. cbn [bind]. unfold chi_squared, fdiv. destruct (Req_EM_T (term_sigma2 t) 0); [lra|]. cbn [bind]. eauto. }
  destruct (A (TPrior (position 0) (truth nz 0) (sigma_x * sigma_x))) as (c0 & ->); [cbn; unfold sigma_x; lra|cbn; unfold prior_error; eauto|]. cbn [bind].
  destruct (A (motion_at nz 1)) as (c1 & ->); [cbn; unfold sigma_u; lra|cbn; unfold motion_error; eauto|]. cbn [bind].
  assert (O : term_cost (observation_at nz 1) (p_start p) = UB) by (unfold term_cost; cbn [term_error observation_at]; unfold observation_error, fdiv; destruct (Req_EM_T (xval wall (p_start p) - xval (position 1) (p_start p)) 0); [reflexivity|contradiction]).
  rewrite O. reflexivity.
Qed.
