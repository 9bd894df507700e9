(** * A 2 x 2 matrix in blocks of 1 x 1, and matrices for the refutations *)
From Coq Require Import Arith Lia List ZArith NArith Bool Reals Lra.
From Verif Require Import Lib_Ring Lib_Real Lib_Res CCM_Model SBM_Model SBM_Spec SBM_Proofs SBM_Proofs2 MatIf_Model MatIf_Spec MatIf_Proofs.
From Verif Require CCM_Spec CCM_Proofs.
Import ListNotations.
Local Open Scope R_scope.

Definition lay12 : list nat := [1; 2]%nat.
Lemma lay12_ok : layout_ok lay12. Proof. intros [|[|b]] H; cbn in *; lia. Qed.
(* 3, 1 / 10 above 0, -2 *)
Definition M22 : mat R := fun r c => match r, c with O, O => 3 | O, _ => 1 / 10 | _, O => 0 | _, _ => -2 end.
(* a block below the diagonal is stored before *)
Lemma stale : exists m A, represents m lay12 lay12 A /\ SBM_Model.get (m : sbm R) 1 0 <> None /\ ~ block_needed (above_tol (1 / 2)) lay12 lay12 M22 1 0 /\ block_needed (above_tol (1 / 2)) lay12 lay12 M22 1 1.
Proof.
  destruct (@fresh_good R lay12 lay12 lay12_ok lay12_ok) as (G & _). destruct (set_ok (fresh lay12 lay12 : sbm R) lay12 lay12 1 0 (fun _ _ => 7) G ltac:(cbn; lia) ltac:(cbn; lia)) as (d & _ & Gd & X).
  exists d, (SBM_Model.toDense d). assert (W : well_formed d) by apply Gd. split; [|split; [|split]].
  - apply good_represents; [exact Gd|]. destruct Gd as (_ & _ & E1 & E2). pose proof (stands_toDense d W) as H. unfold stands_for in H. rewrite E1, E2 in H. exact H.
  - rewrite X. cbn. discriminate.
  - intros (_ & _ & i & j & Hi & Hj & Kp). cbn in Hi, Hj. assert (i = 0%nat) by lia. assert (j = 0%nat) by lia. subst. cbn in Kp. unfold above_tol in Kp. rewrite Rabs_R0 in Kp. destruct (Rlt_dec (1 / 2) 0); [lra|discriminate].
  - split; [cbn; lia|]. split; [cbn; lia|]. exists 0%nat, 0%nat. split; [cbn; lia|]. split; [cbn; lia|]. cbn. unfold above_tol. rewrite Rabs_left by lra. destruct (Rlt_dec (1 / 2) (- -2)); [reflexivity|lra].
Qed.
Lemma cut22 : cut (1 / 2) M22 0%nat 0%nat = 3 /\ cut (1 / 2) M22 0%nat 1%nat = 0 /\ cut (1 / 2) M22 1%nat 1%nat = -2.
Proof.
  unfold cut. cbn. rewrite (Rabs_right 3), (Rabs_right (1 / 10)), (Rabs_left (-2)) by lra.
  destruct (Rle_dec 3 (1 / 2)); [lra|]. destruct (Rle_dec (1 / 10) (1 / 2)); [|lra]. destruct (Rle_dec (- -2) (1 / 2)); [lra|]. auto.
Qed.

(* the matrix (1) with an integer vector (1) *)
Definition one_store : store Z := fun _ => (1%nat, fun _ => 1%Z).
Definition blockOne : sbm Z := mkSbm [1%nat] [1%nat] [[(0%nat, fun _ _ => 1%Z)]] true.
Lemma blockOne_rep : represents blockOne [1%nat] [1%nat] (fun _ _ => 1%Z).
Proof.
  split; [|split; [reflexivity|split; [reflexivity|split; [reflexivity|]]]].
  - constructor; cbn; auto.
    + intros b H. cbn in H. lia.
    + intros b H. cbn in H. lia.
    + intros [|[|c]]; cbn; repeat constructor.
    + intros [|[|c]] r B; cbn; try tauto. intros [E|[]]. injection E as <- _. lia.
  - intros br bc i j H1 H2 _ _. cbn in H1, H2. assert (br = 0%nat) by lia. assert (bc = 0%nat) by lia. subst. reflexivity.
Qed.
Lemma block_in_place_wrong : exists (m : sbm Z) A s, represents m [1%nat] [1%nat] A /\ fst (s 0%nat) = 1%nat /\ ~ result_is s 0 1 (fun r => ksum 1 (fun c => kmul (A r c) (snd (s 0%nat) c))) (sw_right m 0 0 s).
Proof.
  exists blockOne, (fun _ _ => 1%Z), one_store. split; [exact blockOne_rep|]. split; [reflexivity|]. intros (s' & E & _ & V & _). specialize (V 0%nat ltac:(lia)). injection E as <-. vm_compute in V. discriminate.
Qed.
Definition columnOne : ccm Z := mkCcm 1 1 [1%Z] [0%nat] [0; 1]%nat false false.
Lemma columnOne_wf : CCM_Spec.well_formed columnOne /\ CCM_Spec.stands_for 0%Z columnOne (fun _ _ => 1%Z).
Proof.
  split.
  - constructor; try reflexivity.
    + intros c H. cbn in H. assert (c = 0%nat) by lia. subst. unfold CCM_Spec.colptr. cbn. lia.
    + intros c p H. cbn in H. assert (c = 0%nat) by lia. subst. unfold CCM_Spec.colptr, CCM_Spec.rowind. cbn. intros Hp. assert (p = 0%nat) by lia. subst. cbn. lia.
    + intros c p q H. cbn in H. assert (c = 0%nat) by lia. subst. unfold CCM_Spec.colptr. cbn. lia.
  - intros r c Hr Hc. cbn in Hr, Hc. assert (r = 0%nat) by lia. assert (c = 0%nat) by lia. subst. left. exists 0%nat. unfold CCM_Spec.colptr, CCM_Spec.rowind. cbn. auto.
Qed.
Lemma column_in_place_wrong : exists (m : ccm Z) A s, CCM_Spec.well_formed m /\ CCM_Spec.stands_for 0%Z m A /\ c_diag m = false /\ c_rows m = 1%nat /\ c_cols m = 1%nat /\ fst (s 0%nat) = 1%nat /\
  ~ result_is s 0 1 (fun r => ksum 1 (fun c => kmul (A r c) (snd (s 0%nat) c))) (cc_right m 0 0 s).
Proof.
  exists columnOne, (fun _ _ => 1%Z), one_store. split; [apply columnOne_wf|]. split; [apply columnOne_wf|]. split; [reflexivity|]. split; [reflexivity|]. split; [reflexivity|]. split; [reflexivity|].
  intros (s' & E & _ & V & _). specialize (V 0%nat ltac:(lia)). vm_compute in E. injection E as <-. vm_compute in V. discriminate.
Qed.
(* a pushed diagonal is forgotten in the size, but not in the flag *)
Lemma flag_wrong : exists (m m' : ccm Z), pushConstant 1%Z (construct 1 1) = Ok m /\ CCM_Model.fromDense (fun x => negb (x =? 0)%Z) (fun _ _ => 1%Z) 1 1 m = Ok m' /\ cc_right m' 0 1 one_store = Throw.
Proof.
  destruct (pushConstant 1%Z (construct 1 1)) as [m0| |] eqn:E0; [|discriminate|discriminate]. exists m0. vm_compute in E0. injection E0 as <-. eexists. split; [reflexivity|]. split; [vm_compute; reflexivity|]. vm_compute. reflexivity.
Qed.
(* the number 1 with the tolerance -2 *)
Lemma negative_wrong : exists tol (M : mat R) (m : ccm R), c_diag m = false /\ forall m' v w, CCM_Model.fromDense (above_tol (Rabs tol)) M 1 1 m = Ok m' ->
  CCM_Model.element 0 m' 0 0 = Ok v -> dm_element (dm_fromTol (small_tol tol) M 1 1) 0 0 = Ok w -> v <> w.
Proof.
  exists (-2), (fun _ _ => 1), (construct 1 1). split; [reflexivity|]. intros m' v w E Ev Ew. destruct (CCM_Proofs.fromDense_ok 0 (above_tol (Rabs (-2))) (fun _ _ => 1) 1 1 (construct 1 1)) as (m1 & E1 & W & Me & R1 & C1 & D1 & _).
  rewrite E in E1. injection E1 as <-. rewrite (CCM_Proofs.element_ok 0 m' _ 0 0 W Me) in Ev by lia. injection Ev as <-.
  unfold dm_element in Ew. cbn [dm_rows dm_cols dm_fromTol Nat.ltb Nat.leb andb] in Ew. injection Ew as <-. cbn. unfold above_tol, small_tol. rewrite (Rabs_left (-2)), (Rabs_right 1) by lra.
  destruct (Rlt_dec (- -2) 1); [lra|]. destruct (Rle_dec 1 (-2)); lra.
Qed.
