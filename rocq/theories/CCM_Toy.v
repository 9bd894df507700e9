(** * Compressed-column matrices: concrete cases and counterexamples *)
From Coq Require Import Arith Lia List ZArith Bool Sorting.Sorted Sorting.Permutation.
From Flocq Require Import BinarySingleNaN.
From Verif Require Import Lib_Ring Lib_Res Lib_Float CCM_Model CCM_Spec CCM_Proofs CCM_Proofs2 CCM_Proofs3.
Import ListNotations.

(* two design variables of dimensions 1 and 2, a third one that is not active *)
Definition dvA := mkJdv true 0 1 0. Definition dvB := mkJdv true 1 2 1. Definition dvC := mkJdv false (-1) 4 0.
Definition blA : jblock Z := mkJb dvA 2 1 (fun i _ => 5 + Z.of_nat i)%Z.
Definition blB : jblock Z := mkJb dvB 2 2 (fun i j => 10 * Z.of_nat i + Z.of_nat j + 1)%Z.
Definition blB1 : jblock Z := mkJb dvB 1 2 (fun _ j => 20 + Z.of_nat j)%Z.
Lemma jac_toy : jacobian_ok 3 2 [blA; blB].
Proof.
  split; [repeat constructor; cbn; lia|]. repeat constructor; cbn; lia.
Qed.
(* append a Jacobian to a new matrix, then a diagonal *)
Definition dense1 : dense Z := mkDense 3 2 (fun r c => if c <? 0 then 0%Z else jac_entry 0%Z [blA; blB] (c - 0) r) false false.
Definition m1 : ccm Z := mkCcm 3 2 [5; 1; 2; 6; 11; 12]%Z [0; 1; 2; 0; 1; 2] [0; 3; 6] false false.
Lemma reached1 : reached 0%Z m1 dense1.
Proof. apply (r_call 0%Z (OAppend 2 [blA; blB]) (construct 3 0) (mkDense 3 0 (fun _ _ => 0%Z) false false)); [constructor|exact jac_toy|reflexivity|reflexivity]. Qed.
Definition dense2 : dense Z := with_diagonal 0%Z (fun i => nth i [7; 8; 9]%Z 0%Z) 2 dense1.
Definition m2 : ccm Z := mkCcm 3 5 [5; 1; 2; 6; 11; 12; 7; 8; 9]%Z [0; 1; 2; 0; 1; 2; 0; 1; 2] [0; 3; 6; 7; 8; 9] true false.
Lemma reached2 : reached 0%Z m2 dense2.
Proof. apply (r_call 0%Z (OPush [7; 8; 9]%Z) m1 dense1); [exact reached1|exact I|reflexivity|reflexivity]. Qed.

(* arrays of a cholmod_sparse with an empty column, copied over a matrix in use *)
Lemma cholmod_toy : allowed (OCholmod 3 3 [0; 2; 2; 3] [0; 2; 1] [4; -1; 6]%Z) m1 dense1.
Proof.
  split; [reflexivity|]. constructor; try reflexivity.
  - intros [|[|[|c]]] H; cbn in *; lia.
  - intros [|[|[|c]]] [|[|[|p]]] H H2; cbn in *; lia.
  - intros [|[|[|c]]] [|[|[|p]]] [|[|[|q]]] H H2 H3 H4; cbn in *; lia.
Qed.
(* the same matrix with room for one more entry, as CHOLMOD may allocate it: nzmax is taken for the number of entries *)
Lemma cholmod_slack : exists (m : ccm Z) a p i x extra, reached 0%Z m a /\ allowed (OCholmod 3 3 p i x) m a /\ fromCholmod 3 3 p (i ++ [extra]) (x ++ [0%Z]) m = Throw.
Proof. exists m1, dense1, [0; 2; 2; 3], [0; 2; 1], [4; -1; 6]%Z, 0. split; [exact reached1|]. split; [exact cholmod_toy|reflexivity]. Qed.
(* the mark of a pushed diagonal is kept: a pop that should be refused removes real columns *)
Lemma cholmod_flag : exists (m : ccm Z) a p i x m' m'', reached 0%Z m a /\ well_formed (mkCcm 3 3 x i p false false) /\ fromCholmod 3 3 p i x m = Ok m' /\ popDiagonal m' = Ok m'' /\ c_cols m'' = 0.
Proof.
  exists m2, dense2, [0; 2; 2; 3], [0; 2; 1], [4; -1; 6]%Z. do 2 eexists. split; [exact reached2|]. split; [exact (proj2 cholmod_toy)|]. split; [reflexivity|]. split; reflexivity.
Qed.

(* clear followed by element access *)
Lemma clear_breaks : exists (m : ccm Z) a, reached 0%Z m a /\ d_cols a = 5 /\ element 0%Z (clear m) 0 4 = UB /\ c_diag (clear m) = true /\
  (forall d, pushDiagonal d (clear m) = Throw).
Proof.
  exists m2, dense2. split; [exact reached2|]. repeat split.
Qed.
(* init of a matrix that holds something *)
Lemma init_breaks : exists (m : ccm Z) a, reached 0%Z m a /\ c_vals (init 3 0 m) <> [] /\ (forall d, pushDiagonal d (init 3 0 m) = Throw) /\
  (exists jc, jacobian_ok 3 2 jc /\ appendJacobians 0%Z 2 jc (init 3 0 m) = Throw).
Proof.
  exists m1, dense1. split; [exact reached1|]. split; [discriminate|]. split.
  - intros d. unfold pushDiagonal. replace (consistent (init 3 0 m1)) with false by reflexivity. auto.
  - exists [blA; blB]. split; [exact jac_toy|reflexivity].
Qed.
(* fromDense keeps the mark of a pushed diagonal: a pop that should be refused removes real columns *)
Lemma from_dense_breaks : exists (m : ccm Z) a m' m'', reached 0%Z m a /\
  fromDense (fun x => negb (x =? 0)%Z) (fun _ _ => 4)%Z 1 1 m = Ok m' /\ element 0%Z m' 0 0 = Ok 4%Z /\
  (forall d, pushDiagonal d m' = Throw) /\ popDiagonal m' = Ok m'' /\ c_cols m'' = 0.
Proof.
  exists m2, dense2. eexists. eexists. split; [exact reached2|]. split; [vm_compute; reflexivity|]. split; [reflexivity|]. split.
  - intros d. unfold pushDiagonal. cbn [consistent c_diag c_rows]. destruct (consistent _); auto. cbn [negb]. destruct (negb _); auto.
  - split; [vm_compute; reflexivity|reflexivity].
Qed.
(* an update with a vector of another length *)
Lemma update_breaks : exists (m : ccm Z) a d, reached 0%Z m a /\ d_diag a = true /\ updateDiagonal d m = UB.
Proof. exists m2, dense2, [1%Z]. split; [exact reached2|]. split; reflexivity. Qed.
(* products with an appended diagonal *)
Lemma diagonal_refused : exists (m : ccm Z) a, reached k0 m a /\ d_diag a = true /\ (forall x, rightMultiply m (d_cols a) x = Throw) /\
  (exists x y, rightMultiply m (d_cols a - d_rows a) x = Ok y /\ y 0 <> ksum (d_cols a) (fun c => d_mat a 0 c * x c)%Z).
Proof.
  exists m2, dense2. split; [exact reached2|]. split; [reflexivity|]. split; [reflexivity|].
  exists (fun _ => 1%Z). eexists. split; [reflexivity|]. vm_compute. discriminate.
Qed.
(* NaN in a dense matrix is read back as zero *)
Definition keep0 (x : b64) : bool := fgt (fabs x) (fabs f0).
Lemma nan_dropped : exists (M : nat -> nat -> b64) m', isnan (M 0 0) = true /\ fromDense keep0 M 1 1 (construct 0 0) = Ok m' /\ element f0 m' 0 0 = Ok f0.
Proof. exists (fun _ _ => NaN). eexists. split; [reflexivity|]. split; [vm_compute; reflexivity|reflexivity]. Qed.
Lemma keep_equal : forall x, isnan x = false -> feq (if keep0 x then x else f0) x = true.
Proof.
  intros x H. assert (Q : keep0 x = false -> feq f0 x = true). { destruct x as [s|s| |s mm e Hb]; cbn in *; try discriminate; auto. }
  destruct (keep0 x) eqn:E; [|apply Q; auto]. unfold feq. destruct x as [s|[]| |s mm e Hb]; cbn in *; auto; try discriminate.
  destruct s; rewrite Z.compare_refl; unfold Pos.compare; rewrite Pos.compare_cont_refl; reflexivity.
Qed.
Lemma from_dense_doubles : forall (M : nat -> nat -> b64) rows cols (m : ccm b64), (forall r c, r < rows -> c < cols -> isnan (M r c) = false) ->
  exists m', fromDense keep0 M rows cols m = Ok m' /\ well_formed m' /\ c_rows m' = rows /\ c_cols m' = cols /\
    forall r c, r < rows -> c < cols -> exists v, element f0 m' r c = Ok v /\ feq v (M r c) = true.
Proof.
  intros M rows cols m N. destruct (fromDense_ok f0 keep0 M rows cols m) as (m' & E & W & Me & R1 & R2 & _). exists m'. repeat (split; [assumption|]).
  intros r c Hr Hc. eexists. split; [apply (element_ok f0 m' _ r c W Me); lia|]. cbn beta. apply keep_equal. auto.
Qed.

(* the builder: two error terms, of dimensions 2 and 1 *)
Definition et1 : eterm Z := mkEt 2 [dvB; dvC; dvA] [blA; blB].
Definition et2 : eterm Z := mkEt 1 [dvB] [blB1].
Lemma et_ok : Forall (term_ok 3) [et1; et2].
Proof.
  constructor; [|constructor; [|constructor]].
  - split; [exact jac_toy|]. cbn. apply perm_swap.
  - split; [|apply Permutation_refl]. split; repeat constructor; cbn; lia.
Qed.
Lemma et_some : Forall (fun e : eterm Z => e_jac e <> []) [et1; et2].
Proof. repeat constructor; discriminate. Qed.
