(** * Marginal covariances: a concrete case *)
From Coq Require Import Arith Lia List ZArith Bool Sorting.Permutation.
From Verif Require Import Lib_Ring Lib_Res CCM_Model SBM_Model SBM_Spec Cov_Model Cov_Spec.
From Verif Require CCM_Spec.
Import ListNotations.

Definition cLp : list nat := [0; 3; 4; 5]. Definition cLi : list nat := [0; 1; 2; 1; 2]. Definition cLx : list Z := [1; 2; 3; 1; -1]%Z.
Definition rows_of (l : list (list Z)) : mat Z := fun i j => nth j (nth i l []) 0%Z.
Definition cL : mat Z := rows_of [[1; 0; 0]; [2; 1; 0]; [3; 0; -1]]%Z.
Definition cperm : option (list nat) := Some [2; 0; 1].
(* the matrix and its inverse *)
Definition cA : mat Z := fun i j => mmul 3 cL (mtr cL) (position cperm i) (position cperm j).
Definition cAi : mat Z := rows_of [[1; -3; 0]; [-3; 14; -2]; [0; -2; 1]]%Z.
Definition keep (l : list (nat * nat)) := l.
Definition self (x : Z) := x.
Lemma cfactor : factor 3 cLp cLi cLx cL.
Proof.
  split; [|split].
  - constructor; cbn; auto.
    + intros [|[|[|c]]] H; cbn; lia.
    + intros [|[|[|c]]] p H; try lia; cbn; intros Hp; do 5 (destruct p as [|p]; [cbn in *; lia|]); cbn in *; lia.
    + intros [|[|[|c]]] p q H; try lia; cbn; intros H1 H2 H3; do 3 (destruct p as [|p]; [do 3 (destruct q as [|q]; [cbn in *; try lia|]); cbn in *; lia|]); cbn in *; lia.
  - intros [|[|[|r]]] [|[|[|c]]] Hr Hc; try (cbn in *; lia);
      first [left; exists 0; split; [cbn; lia|split; reflexivity] | left; exists 1; split; [cbn; lia|split; reflexivity] | left; exists 2; split; [cbn; lia|split; reflexivity] |
             left; exists 3; split; [cbn; lia|split; reflexivity] | left; exists 4; split; [cbn; lia|split; reflexivity] |
             right; split; [|reflexivity]; cbn; intros p Hp; do 5 (destruct p as [|p]; [cbn in *; lia|]); cbn in *; lia].
  - intros [|[|[|c]]] H; cbn; lia.
Qed.
Lemma crecip : forall r, r < 3 -> kmul (self (cL r r)) (cL r r) = k1.
Proof. intros [|[|[|r]]] H; try reflexivity; lia. Qed.
Lemma cfits : fits_int 3. Proof. unfold fits_int, int_max. lia. Qed.
Lemma cpermutation : permutation 3 cperm.
Proof. split; [reflexivity|]. split; [intros [|[|[|i]]] H; cbn; lia|intros [|[|[|i]]] [|[|[|j]]] H1 H2; cbn; lia]. Qed.
Lemma ckeep : forall q, Permutation (keep q) q. Proof. intros. apply Permutation_refl. Qed.
Lemma cfactorises : factorises 3 cperm cL cA. Proof. intros i j _ _. reflexivity. Qed.
Lemma cinverse : meq 3 3 (mmul 3 cA cAi) mid.
Proof. intros [|[|[|i]]] [|[|[|j]]] H1 H2; try reflexivity; lia. Qed.
Definition clay : list nat := [2; 3].
Lemma clay_ok : layout_ok clay. Proof. intros [|[|b]] H; cbn in *; lia. Qed.
Lemma crun : match (do M <- setCholeskyFactor self 3 cLp cLi cLx cperm; computeCovariance keep M [fun _ => 0%Z; fun _ => 0%Z] clay) with Ok o => map (fun f => map f [0; 1; 2; 3]) o | _ => [] end = [[1; -3; -3; 14]; [1; 0; 0; 0]]%Z.
Proof. reflexivity. Qed.
Definition big : mcc Z := mkMcc (Z.to_nat 46342) [] [] [] None [].
Lemma big_is : (Z.of_nat (m_n big) * Z.of_nat (m_n big) > int_max + 1)%Z.
Proof. unfold big. cbn [m_n]. rewrite Z2Nat.id by lia. unfold int_max. lia. Qed.
