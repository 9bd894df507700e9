(** * Conjugate gradient: concrete runs *)
From Coq Require Import Arith Lia List ZArith Bool Sorting.Sorted QArith Qcanon.
From Verif Require Import Lib_Ring Lib_Res SBM_Model SBM_Spec PCG_Model PCG_Spec.
Import ListNotations.

Definition q (a : Z) (b : BinNums.positive) : Qc := Q2Qc (a # b).
Definition qleb (a b : Qc) : bool := Qle_bool (this a) (this b).
Definition qgtb (a b : Qc) : bool := negb (qleb a b).
(* the inverse of a 1 x 1 block *)
Definition inv1 (n : nat) (M : mat Qc) : mat Qc := fun _ _ => Qcinv (M 0%nat 0%nat).
Definition blk1 (z : Z) : mat Qc := fun _ _ => q z 1.
Definition lay : list nat := [1; 2; 3]%nat.
Definition matq (l : list (list Z)) : mat Qc := fun i j => q (nth j (nth i l []) 0%Z) 1.
Definition vecq (l : list Z) : vec Qc := fun i => q (nth i l 0%Z) 1.
Definition A1 : sbm Qc := mkSbm lay lay [[(0%nat, blk1 2)]; [(0%nat, blk1 1); (1%nat, blk1 3)]; [(2%nat, blk1 4)]] true.
Definition S1 : mat Qc := matq [[2; 1; 0]; [1; 3; 0]; [0; 0; 4]]%Z.
(* one more block *)
Definition A2 : sbm Qc := mkSbm lay lay [[(0%nat, blk1 2)]; [(0%nat, blk1 1); (1%nat, blk1 3)]; [(0%nat, blk1 1); (2%nat, blk1 4)]] true.
Definition S2 : mat Qc := matq [[2; 1; 1]; [1; 3; 0]; [1; 0; 4]]%Z.

Lemma lay_ok : layout_ok lay. Proof. intros [|[|[|b]]] H; cbn in *; lia. Qed.
Lemma wfq : forall a b c (s : bool), StronglySorted lt (map fst a) -> StronglySorted lt (map fst b) -> StronglySorted lt (map fst c) ->
  Forall (fun e : nat * mat Qc => (fst e < 3)%nat) a -> Forall (fun e : nat * mat Qc => (fst e < 3)%nat) b -> Forall (fun e : nat * mat Qc => (fst e < 3)%nat) c -> well_formed (mkSbm lay lay [a; b; c] s).
Proof.
  intros a b c s Sa Sb Sc Fa Fb Fc. constructor; cbn [s_rbi s_cbi s_cols]; try apply lay_ok; auto.
  - intros [|[|[|[|k]]]]; cbn [nth]; auto; constructor.
  - intros [|[|[|[|k]]]] r B; cbn [nth]; intros H; [rewrite Forall_forall in Fa; apply (Fa _ H)|rewrite Forall_forall in Fb; apply (Fb _ H)|rewrite Forall_forall in Fc; apply (Fc _ H)|destruct H|destruct H].
Qed.
Lemma A1_holds : holds_upper A1 lay S1.
Proof. split; [apply wfq; repeat constructor; cbn; lia|]. repeat split; auto. intros [|[|[|br]]] [|[|[|bc]]] [|i] [|j]; intros H1 H2 H3 H4; try reflexivity; cbn in *; lia. Qed.
Lemma A2_holds : holds_upper A2 lay S2.
Proof. split; [apply wfq; repeat constructor; cbn; lia|]. repeat split; auto. intros [|[|[|br]]] [|[|[|bc]]] [|i] [|j]; intros H1 H2 H3 H4; try reflexivity; cbn in *; lia. Qed.
Lemma S1_sym : forall p q, (p < total lay)%nat -> (q < total lay)%nat -> S1 p q = S1 q p.
Proof. intros [|[|[|p]]] [|[|[|r]]] H1 H2; try reflexivity; cbn in *; lia. Qed.
Lemma S2_sym : forall p q, (p < total lay)%nat -> (q < total lay)%nat -> S2 p q = S2 q p.
Proof. intros [|[|[|p]]] [|[|[|r]]] H1 H2; try reflexivity; cbn in *; lia. Qed.
Lemma A1_diag : diagonal_stored A1. Proof. intros [|[|[|i]]] H; cbn in *; try lia; discriminate. Qed.
Lemma A2_diag : diagonal_stored A2. Proof. intros [|[|[|i]]] H; cbn in *; try lia; discriminate. Qed.

Notation solveq := (pcg_solve Qcdiv qleb qgtb (q 1 2) inv1).
(* the preconditioned residual  r . J r *)
Definition meas (S : mat Qc) (b x : vec Qc) : Qc := vdot 3 (residual 3 S b x) (fun p => Qcdiv (residual 3 S b x p) (S p p)).
Definition out {T} (d : T) (x : res T) : T := match x with Ok v => v | _ => d end.
Definition P0 (tol : Qc) (k : Z) : pcg Qc := mkPcg tol (q (-1) 1) true k [].
Definition dflt (tol : Qc) : pcg Qc * vec Qc * bool * bool := (P0 tol 0, vecq [], false, false).

Definition flags {T U} (f c : bool) (x : res (T * U * bool * bool)) : bool := match x with Ok e => Bool.eqb (snd (fst e)) f && Bool.eqb (snd e) c | _ => false end.
Lemma by_flags : forall T U (d : T * U * bool * bool) f c x, flags f c x = true -> x = Ok (fst (fst (fst (out d x))), snd (fst (fst (out d x))), f, c).
Proof. intros T U d f c [[[[P y] a] b]| |] H; cbn [flags] in H; try discriminate. cbn [fst snd] in H. apply andb_prop in H. destruct H as [H1 H2]. apply Bool.eqb_prop in H1, H2. subst. auto. Qed.
(* a run to the exact solution *)
Definition run1 := out (dflt (q 0 1)) (solveq (P0 (q 0 1) 10) A1 (vecq [3; 4; 4]%Z)).
Lemma run1_eq : solveq (P0 (q 0 1) 10) A1 (vecq [3; 4; 4]%Z) = Ok (fst (fst (fst run1)), snd (fst (fst run1)), true, true). Proof. apply by_flags. vm_compute. reflexivity. Qed.
Definition isq (a b : Qc) : bool := Qeq_bool (this a) (this b).
Lemma isq_eq : forall a b, isq a b = true -> a = b. Proof. intros a b H. apply Qc_is_canon. apply Qeq_bool_eq. exact H. Qed.
Lemma run1_sol : forall p, (p < 3)%nat -> snd (fst (fst run1)) p = q 1 1.
Proof. intros [|[|[|p]]] H; [apply isq_eq; vm_compute; reflexivity| | |lia]; apply isq_eq; vm_compute; reflexivity. Qed.

(* one iteration, far from solved *)
Definition run2 := out (dflt (q 1 1000000)) (solveq (P0 (q 1 1000000) 1) A1 (vecq [3; 4; 4]%Z)).
Lemma limit : exists P A l S b P' x, holds_upper A l S /\ total l = 3%nat /\ (forall p q, (p < total l)%nat -> (q < total l)%nat -> S p q = S q p) /\ diagonal_stored A /\ p_ix P = [] /\
  pcg_solve Qcdiv qleb qgtb (q 1 2) inv1 P A b = Ok (P', x, true, false) /\ qleb (meas S b x) (Qcmult (p_tol P) (meas S b (vecq []))) = false.
Proof.
  exists (P0 (q 1 1000000) 1), A1, lay, S1, (vecq [3; 4; 4]%Z), (fst (fst (fst run2))), (snd (fst (fst run2))).
  split; [exact A1_holds|]. split; [reflexivity|]. split; [exact S1_sym|]. split; [exact A1_diag|]. split; [reflexivity|]. split; [apply by_flags; vm_compute; reflexivity|vm_compute; reflexivity].
Qed.

(* the first solve leaves a residual that the second, with a small right-hand side, takes as its threshold *)
Definition run3 := out (dflt (q 1 10)) (solveq (P0 (q 1 10) (-1)) A1 (vecq [300; 450; 470]%Z)).
Definition run4 := out (dflt (q 1 10)) (solveq (fst (fst (fst run3))) A1 (vecq [3; 4; 4]%Z)).
Lemma leftover : exists P A l S b1 b2 P1 x1 P2 x2, holds_upper A l S /\ total l = 3%nat /\ (forall p q, (p < total l)%nat -> (q < total l)%nat -> S p q = S q p) /\ diagonal_stored A /\ p_ix P = [] /\ p_res P = q (-1) 1 /\ p_tol P = q 1 10 /\
  pcg_solve Qcdiv qleb qgtb (q 1 2) inv1 P A b1 = Ok (P1, x1, true, true) /\ pcg_solve Qcdiv qleb qgtb (q 1 2) inv1 P1 A b2 = Ok (P2, x2, true, true) /\
  b2 0%nat <> q 0 1 /\ forall p, (p < 3)%nat -> x2 p = q 0 1.
Proof.
  exists (P0 (q 1 10) (-1)), A1, lay, S1, (vecq [300; 450; 470]%Z), (vecq [3; 4; 4]%Z), (fst (fst (fst run3))), (snd (fst (fst run3))), (fst (fst (fst run4))), (snd (fst (fst run4))).
  split; [exact A1_holds|]. split; [reflexivity|]. split; [exact S1_sym|]. split; [exact A1_diag|]. split; [reflexivity|]. split; [reflexivity|]. split; [reflexivity|]. split; [apply by_flags; vm_compute; reflexivity|]. split; [apply by_flags; vm_compute; reflexivity|].
  split; [intros F; apply (f_equal this) in F; vm_compute in F; discriminate F|]. intros [|[|[|p]]] H; [apply isq_eq; vm_compute; reflexivity| | |lia]; apply isq_eq; vm_compute; reflexivity.
Qed.

(* a block is added between two solves: the second solve works with the old list of blocks *)
Definition run5 := out (dflt (q 0 1)) (solveq (fst (fst (fst run1))) A2 (vecq [3; 4; 4]%Z)).
Lemma run5_eq : solveq (fst (fst (fst run1))) A2 (vecq [3; 4; 4]%Z) = Ok (fst (fst (fst run5)), snd (fst (fst run5)), true, true). Proof. apply by_flags. vm_compute. reflexivity. Qed.
Lemma run5_res : isq (residual 3 S2 (vecq [3; 4; 4]%Z) (snd (fst (fst run5))) 0%nat) (q 0 1) = false. Proof. vm_compute. reflexivity. Qed.
Lemma stale : exists P A l S b P1 x1 A' S' P2 x2, holds_upper A l S /\ holds_upper A' l S' /\ total l = 3%nat /\ (forall p q, (p < total l)%nat -> (q < total l)%nat -> S' p q = S' q p) /\
  diagonal_stored A /\ diagonal_stored A' /\ p_ix P = [] /\ p_tol P = q 0 1 /\ p_res P = q (-1) 1 /\
  pcg_solve Qcdiv qleb qgtb (q 1 2) inv1 P A b = Ok (P1, x1, true, true) /\ pcg_solve Qcdiv qleb qgtb (q 1 2) inv1 P1 A' b = Ok (P2, x2, true, true) /\
  residual 3 S' b x2 0%nat <> q 0 1.
Proof.
  exists (P0 (q 0 1) 10), A1, lay, S1, (vecq [3; 4; 4]%Z), (fst (fst (fst run1))), (snd (fst (fst run1))), A2, S2, (fst (fst (fst run5))), (snd (fst (fst run5))).
  split; [exact A1_holds|]. split; [exact A2_holds|]. split; [reflexivity|]. split; [exact S2_sym|]. split; [exact A1_diag|]. split; [exact A2_diag|]. split; [reflexivity|]. split; [reflexivity|]. split; [reflexivity|].
  split; [exact run1_eq|]. split; [exact run5_eq|]. intros F. pose proof run5_res as G. rewrite F in G. vm_compute in G. discriminate G.
Qed.
