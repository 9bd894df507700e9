(** * Schur complement: a concrete case and a counterexample *)
From Coq Require Import Arith Lia List ZArith Bool Sorting.Sorted.
From Verif Require Import Lib_Ring Lib_Res SBM_Model SBM_Spec SBM_Proofs SBM_Proofs2 SBM_Proofs5 Schur_Model Schur_Spec.
Import ListNotations.

(* one kept block of size 2, two eliminated ones of size 1 *)
Definition lay3 : list nat := [2; 3; 4].
Definition mat_of (l : list (list Z)) : mat Z := fun i j => nth j (nth i l []) 0%Z.
Definition H3 : sbm Z := mkSbm lay3 lay3 [[(0, mat_of [[5; 1]; [1; 4]]%Z)]; [(0, mat_of [[1]; [2]]%Z); (1, mat_of [[-1]]%Z)]; [(0, mat_of [[3]; [0]]%Z); (2, mat_of [[-3]]%Z)]] true.
Definition S3 : mat Z := mat_of [[5; 1; 1; 3]; [1; 4; 2; 0]; [1; 2; -1; 0]; [3; 0; 0; -3]]%Z.
(* the same with the two eliminated blocks coupled *)
Definition H3c : sbm Z := mkSbm lay3 lay3 [[(0, mat_of [[5; 1]; [1; 4]]%Z)]; [(0, mat_of [[1]; [2]]%Z); (1, mat_of [[-1]]%Z)]; [(0, mat_of [[3]; [0]]%Z); (1, mat_of [[1]]%Z); (2, mat_of [[-3]]%Z)]] true.
Definition S3c : mat Z := mat_of [[5; 1; 1; 3]; [1; 4; 2; 0]; [1; 2; -1; 1]; [3; 0; 1; -3]]%Z.

Lemma lay3_ok : layout_ok lay3. Proof. intros [|[|[|b]]] H; cbn in *; lia. Qed.
Lemma wf3 : forall a b c (s : bool), StronglySorted lt (map fst a) -> StronglySorted lt (map fst b) -> StronglySorted lt (map fst c) ->
  Forall (fun e : nat * mat Z => fst e < 3) a -> Forall (fun e : nat * mat Z => fst e < 3) b -> Forall (fun e : nat * mat Z => fst e < 3) c -> well_formed (mkSbm lay3 lay3 [a; b; c] s).
Proof.
  intros a b c s Sa Sb Sc Fa Fb Fc. constructor; cbn [s_rbi s_cbi s_cols]; try apply lay3_ok; auto.
  - intros [|[|[|[|k]]]]; cbn [nth]; auto; constructor.
  - intros [|[|[|[|k]]]] r B; cbn [nth]; intros H; [rewrite Forall_forall in Fa; apply (Fa _ H)|rewrite Forall_forall in Fb; apply (Fb _ H)|rewrite Forall_forall in Fc; apply (Fc _ H)|destruct H|destruct H].
Qed.
Ltac each3 := intros [|[|[|br]]] [|[|[|bc]]] [|[|i]] [|[|j]]; intros H1 H2 H3 H4; try reflexivity; cbn in *; lia.
Lemma H3_holds : holds_upper H3 lay3 S3.
Proof. split; [apply wf3; repeat constructor; cbn; lia|]. repeat split; auto. each3. Qed.
Lemma H3c_holds : holds_upper H3c lay3 S3c.
Proof. split; [apply wf3; repeat constructor; cbn; lia|]. repeat split; auto. each3. Qed.
Lemma S3_sym : symmetric (total lay3) S3.
Proof. intros [|[|[|[|p]]]] [|[|[|[|q]]]] H1 H2; try reflexivity; cbn in *; lia. Qed.
Lemma S3c_sym : symmetric (total lay3) S3c.
Proof. intros [|[|[|[|p]]]] [|[|[|[|q]]]] H1 H2; try reflexivity; cbn in *; lia. Qed.
Lemma S3_diag : block_diagonal_from 1 lay3 S3.
Proof. intros [|[|[|b]]] [|[|[|c]]] [|[|i]] [|[|j]] H1 H2 N H3 H4; try reflexivity; try lia; cbn in *; lia. Qed.
(* 1 x 1 matrices with entry 1 or -1 are their own inverse *)
Definition self_inv (n : nat) (M : mat Z) : mat Z := M.
Lemma self_inv_ok : forall S i V, (S = S3 \/ S = S3c) -> i < 2 -> meq (bsize lay3 (1 + i)) (bsize lay3 (1 + i)) V (diag_block lay3 2%Z S (1 + i)) -> right_inverse (bsize lay3 (1 + i)) V (self_inv (bsize lay3 (1 + i)) V).
Proof.
  intros S i V HS Hi M. destruct i as [|[|i]]; [| |lia]; cbn [bsize plus] in *; intros [|p] [|q] Hp Hq; try (cbn in Hp, Hq; lia);
    unfold self_inv, mmul; cbn [bsize lay3 nth base Nat.sub ksum]; rewrite (M 0 0) by (cbn; lia); destruct HS as [->| ->]; reflexivity.
Qed.
Definition dest3 : sbm Z := fresh [2] [2].
Lemma dest3_represents : represents dest3 (firstn 1 lay3) (firstn 1 lay3) (toDense dest3).
Proof.
  assert (W : well_formed dest3). { constructor; cbn [s_rbi s_cbi s_cols dest3 fresh]; auto; try (intros [|b] H; cbn in *; lia); intros [|[|c]]; cbn; try constructor; intros; contradiction. }
  split; [exact W|]. repeat split. apply stands_toDense. exact W.
Qed.
Definition rhs3 : vec Z := fun p => nth p [19; 8; 4; -4]%Z 0%Z.
Definition x3 : schur Z := match applySchurComplement self_inv H3 rhs3 2%Z 1 true dest3 2 with Ok x => x | _ => mkSchur H3 H3 [] rhs3 end.
Lemma x3_run : applySchurComplement self_inv H3 rhs3 2%Z 1 true dest3 2 = Ok x3. Proof. reflexivity. Qed.
Lemma x3_values : map (sc_b x3) [0; 1] = [3; 0]%Z /\ map (fun i => map (blk (sc_A x3) 0 0 i) [0; 1]) [0; 1] = [[15; -1]; [-1; 2]]%Z. Proof. split; reflexivity. Qed.

Definition rhs4 : vec Z := fun p => nth p [14; 1; 0; 0]%Z 0%Z.
Definition x4 : schur Z := match applySchurComplement self_inv H3c rhs4 2%Z 1 true dest3 2 with Ok x => x | _ => mkSchur H3c H3c [] rhs4 end.
Definition Ar4 : mat Z := mat_of [[15; -1]; [-1; 2]]%Z.
Definition y4 : vec Z := fun p => nth p [1; 1; -3; 3]%Z 0%Z.
Lemma coupled : exists (inv : nat -> mat Z -> mat Z) H l S rhs lambda A D x Ar y, holds_upper H l S /\ symmetric (total l) S /\ 1 + 2 = length l /\ represents A (firstn 1 l) (firstn 1 l) D /\
  (forall i V, i < 2 -> meq (bsize l (1 + i)) (bsize l (1 + i)) V (diag_block l lambda S (1 + i)) -> right_inverse (bsize l (1 + i)) V (inv (bsize l (1 + i)) V)) /\
  applySchurComplement inv H rhs lambda 1 true A 2 = Ok x /\ holds_upper (sc_A x) (firstn 1 l) Ar /\ symmetric (base l 1) Ar /\ solves (base l 1) Ar y (sc_b x) /\
  (forall i t, i < 2 -> t < bsize l (1 + i) -> y (base l (1 + i) + t) = buildDsi i (sc_H x) rhs 1 (nth i (sc_inv x) zeroM) y t) /\
  ~ solves (total l) (damped_by lambda S) y rhs.
Proof.
  exists self_inv, H3c, lay3, S3c, rhs4, 2%Z, dest3, (toDense dest3), x4, Ar4, y4. split; [exact H3c_holds|]. split; [exact S3c_sym|]. split; [reflexivity|]. split; [exact dest3_represents|].
  split; [intros i V Hi M; apply (self_inv_ok S3c); auto|]. split; [reflexivity|].
  split. { split. { constructor; auto; try (intros [|b] H; cbn in *; lia); intros [|[|c]]; cbn; try (constructor; constructor || constructor); try contradiction. intros r B [E|[]]. injection E as <- _. auto. }
    repeat split; auto. intros [|br] [|bc] [|[|i]] [|[|j]] H1 H2 H3 H4; try reflexivity; cbn in *; lia. }
  split; [intros [|[|p]] [|[|q]] H1 H2; try reflexivity; cbn in *; lia|].
  split; [intros [|[|p]] H1; try reflexivity; cbn in *; lia|].
  split; [intros [|[|i]] [|t] Hi Ht; try reflexivity; cbn in *; lia|].
  intros F. specialize (F 2 ltac:(cbn; lia)). vm_compute in F. discriminate F.
Qed.
