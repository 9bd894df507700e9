(** * SparseBlockMatrix: concrete cases and counterexamples *)
From Coq Require Import Arith Lia List ZArith Bool Sorting.Sorted.
From Verif Require Import Lib_Ring Lib_Res CCM_Model SBM_Model SBM_Spec SBM_Proofs SBM_Proofs2 SBM_Proofs3 SBM_Proofs4 SBM_Proofs5.
From Verif Require CCM_Spec.
Import ListNotations.

(* block sizes 2 and 1; the upper blocks of a symmetric matrix *)
Definition lay : list nat := [2; 3].
Definition B00 : mat Z := fun i j => (Z.of_nat i + Z.of_nat j + 1)%Z.
Definition B01 : mat Z := fun i _ => (10 + Z.of_nat i)%Z.
Definition B11 : mat Z := fun _ _ => 7%Z.
Definition toy : sbm Z := mkSbm lay lay [[(0, B00)]; [(0, B01); (1, B11)]] true.
Lemma lay_ok : layout_ok lay. Proof. intros [|[|b]] H; cbn in *; lia. Qed.
Lemma wf2 : forall a b (s : bool), StronglySorted lt (map fst a) -> StronglySorted lt (map fst b) -> Forall (fun e : nat * mat Z => fst e < 2) a -> Forall (fun e : nat * mat Z => fst e < 2) b ->
  well_formed (mkSbm lay lay [a; b] s).
Proof.
  intros a b s Sa Sb Fa Fb. constructor; cbn [s_rbi s_cbi s_cols]; try apply lay_ok; auto.
  - intros [|[|[|c]]]; cbn [nth]; auto; constructor.
  - intros [|[|[|c]]] r B; cbn [nth]; intros H; [rewrite Forall_forall in Fa; apply (Fa _ H)|rewrite Forall_forall in Fb; apply (Fb _ H)|destruct H|destruct H].
Qed.
Lemma toy_wf : well_formed toy. Proof. apply wf2; repeat constructor; cbn; lia. Qed.
Definition denseToy : mat Z := toDense toy.
Lemma toy_stands : stands_for toy denseToy. Proof. apply stands_toDense. exact toy_wf. Qed.
Lemma toy_represents : represents toy lay lay denseToy. Proof. split; [exact toy_wf|]. repeat split. exact toy_stands. Qed.
Lemma toy_positive : positive lay. Proof. intros [|[|b]] H; cbn in *; lia. Qed.
Lemma toy_upper : upper_only toy. Proof. intros r [|[|[|c]]]; cbn; destruct r as [|[|r]]; cbn; intros H; lia || congruence. Qed.
Lemma symm_symm : forall (A : mat Z) p q, symm A p q = symm A q p.
Proof. intros A p q. unfold symm. destruct (Nat.leb_spec p q), (Nat.leb_spec q p); auto; [replace p with q by lia; auto|lia]. Qed.
Lemma toy_half : stores_half toy (symm denseToy).
Proof.
  split; [intros; apply symm_symm|]. split.
  - intros r c B i j H. destruct (get_range _ _ _ _ toy_wf H) as (H1 & H2). destruct r as [|[|r]]; [| |cbn in H1; lia]; (destruct c as [|[|c]]; [| |cbn in H2; lia]); cbn in H; try discriminate H; injection H as <-;
      cbn [s_rbi toy]; (destruct i as [|[|i]]; [| |intros Hi; cbn in Hi; lia]); (destruct j as [|[|j]]; [| |intros _ Hj; cbn in Hj; lia]); intros Hi Hj; try (cbn in Hi; lia); try (cbn in Hj; lia); reflexivity.
  - intros r c i j H1 H2. destruct r as [|[|r]]; [| |cbn in H1; lia]; (destruct c as [|[|c]]; [| |cbn in H2; lia]); cbn; intros G1 G2; discriminate G1 || discriminate G2.
Qed.
(* exchange the two blocks *)
Definition swap (i : nat) : nat := 1 - i.
Definition lay' : list nat := [1; 3].
Lemma swap_perm : is_perm 2 swap. Proof. split; unfold swap; lia. Qed.
Lemma swap_blocks : permuted_blocks lay swap lay'.
Proof. split; [intros [|[|b]] H; cbn in *; lia|]. split; auto. intros [|[|i]] H; cbn in *; auto; lia. Qed.
Definition moved (A : mat Z) : mat Z := fun p q => A (nth p [2; 0; 1] 0) (nth q [2; 0; 1] 0).
Lemma swap_content : forall A, permuted lay swap lay' A (moved A).
Proof.
  intros A br bc i j H1 H2. destruct br as [|[|br]]; [| |cbn in H1; lia]; (destruct bc as [|[|bc]]; [| |cbn in H2; lia]);
    (destruct i as [|[|i]]; [| |intros Hi; cbn in Hi; lia]); (destruct j as [|[|j]]; [| |intros _ Hj; cbn in Hj; lia]); intros Hi Hj; try (cbn in Hi; lia); try (cbn in Hj; lia); reflexivity.
Qed.

(* a destination that already stores a block outside of the pattern *)
Definition stale : sbm Z := mkSbm lay lay [[]; [(0, B01)]] true.
Lemma stale_represents : represents stale lay lay (toDense stale).
Proof. assert (W : well_formed stale) by (apply wf2; repeat constructor; cbn; lia). split; [exact W|]. repeat split. apply stands_toDense. exact W. Qed.
Lemma transpose_stale : exists (m d : sbm Z) A D, represents m lay lay A /\ represents d lay lay D /\ ~ delivers (transpose m (Some d)) lay lay (mtr A).
Proof.
  exists toy, stale, denseToy, (toDense stale). split; [exact toy_represents|]. split; [exact stale_represents|]. intros (d & E & _ & _ & E1 & E2 & S).
  specialize (S 0 1 0 0). rewrite E1, E2 in S. specialize (S ltac:(cbn; lia) ltac:(cbn; lia) ltac:(cbn; lia) ltac:(cbn; lia)). vm_compute in E. injection E as <-. vm_compute in S. discriminate S.
Qed.
Lemma multiply_accumulates : exists (m f d : sbm Z) A B D, represents m lay lay A /\ represents f lay lay B /\ represents d lay lay D /\
  ~ delivers (multiply m f (Some d)) lay lay (mmul 3 A B).
Proof.
  exists toy, toy, stale, denseToy, denseToy, (toDense stale). split; [exact toy_represents|]. split; [exact toy_represents|]. split; [exact stale_represents|].
  pose proof (multiply_some toy toy denseToy denseToy stale (toDense stale) toy_wf toy_wf eq_refl toy_stands toy_stands stale_represents) as (d & E & _ & _ & E1 & E2 & S1).
  intros (d' & E' & _ & _ & _ & _ & S2). rewrite E in E'. injection E' as <-.
  specialize (S1 0 1 0 0). specialize (S2 0 1 0 0). rewrite E1, E2 in S1, S2. specialize (S1 ltac:(cbn; lia) ltac:(cbn; lia) ltac:(cbn; lia) ltac:(cbn; lia)).
  specialize (S2 ltac:(cbn; lia) ltac:(cbn; lia) ltac:(cbn; lia) ltac:(cbn; lia)). rewrite <- S2 in S1. vm_compute in S1. discriminate S1.
Qed.
Lemma pointer_accumulates : exists (m : sbm Z) A (y x : vec Z), represents m lay lay A /\ multiplyPtr m (Some y) x 0 <> mvmul 3 A x 0 /\ rightMultiplyPtr m (Some y) x 0 <> mvmul 3 (mtr A) x 0 /\
  multiplyVec m x 0 = mvmul 3 A x 0 /\ rightMultiplyVec m x 0 = mvmul 3 (mtr A) x 0.
Proof. exists toy, denseToy, (fun _ => 1%Z), (fun _ => 1%Z). split; [exact toy_represents|]. split; [vm_compute; discriminate|]. split; [vm_compute; discriminate|]. split; vm_compute; reflexivity. Qed.

(* an empty block in front of another one makes the test for the diagonal block wrong *)
Lemma empty_block : exists m : sbm Z, well_formed m /\ s_cbi m = s_rbi m /\ upper_only m /\ fillCCS m true = UB.
Proof.
  exists (mkSbm [0; 1] [0; 1] [[]; [(0, fun _ _ => 0%Z)]] true). split; [|split; [auto|split; [|reflexivity]]].
  - constructor; cbn [s_rbi s_cbi s_cols]; auto; try (intros [|[|b]] H; cbn in *; lia).
    + intros [|[|[|c]]]; cbn; repeat constructor.
    + intros [|[|[|c]]] r B; cbn; intros H; try tauto. destruct H as [H|[]]. injection H as <- _. lia.
  - intros r [|[|[|c]]]; cbn; destruct r as [|r]; cbn; intros H; lia || congruence.
Qed.
(* a block stored below the diagonal *)
Definition both : sbm Z := mkSbm lay lay [[(0, B00); (1, mtr B01)]; [(0, B01); (1, B11)]] true.
Lemma both_wf : well_formed both. Proof. apply wf2; repeat constructor; cbn; lia. Qed.
Lemma lower_block : exists (m : sbm Z) A x, represents m lay lay A /\ (forall p q, p < 3 -> q < 3 -> A p q = A q p) /\ fillUpper m = Ok x /\ forall C, ~ is_ccs 3 3 C x.
Proof.
  exists both, (toDense both). eexists. split; [split; [exact both_wf|]; repeat split; apply stands_toDense; exact both_wf|]. split.
  { intros [|[|[|p]]] [|[|[|q]]] H1 H2; try lia; reflexivity. }
  split; [vm_compute; reflexivity|]. intros C (W & _). pose proof (CCM_Spec.wf_sorted _ W 0 1 3) as H. vm_compute in H. specialize (H ltac:(lia) ltac:(lia) ltac:(lia) ltac:(lia)). lia.
Qed.
Lemma lower_block_triu : exists (m : sbm Z) A x, represents m lay lay A /\ fillCCS m true = Ok x /\ ~ is_ccs 3 3 (triu A) x.
Proof.
  exists both, (toDense both). eexists. split; [split; [exact both_wf|]; repeat split; apply stands_toDense; exact both_wf|].
  split; [vm_compute; reflexivity|]. intros (W & S). destruct (S 2 0 ltac:(cbn; lia) ltac:(cbn; lia)) as [(p & H1 & H2 & H3)|(H & _)].
  - cbn in H1. destruct p as [|[|p]]; cbn in H2, H3; try discriminate; lia.
  - apply (H 1); cbn; lia || reflexivity.
Qed.
Lemma lay_differs : s_rbi stale <> lay'. Proof. discriminate. Qed.
