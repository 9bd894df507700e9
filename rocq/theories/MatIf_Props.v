(** * C76: the implementations of Matrix can be used for one another

    [cut tol M]: the dense matrix with the entries up to the tolerance set to zero. [dense_behaves], [block_behaves], [column_behaves]: size, elements and dense copy are those of the given matrix A,
    rightMultiply(x, y) leaves A x in y and leftMultiply(x, y) A^T x, whatever y held and however long it was, with every other vector unchanged; x and y are different vectors. *)
From Coq Require Import Arith Lia List ZArith NArith Bool Reals Lra.
From Verif Require Import Lib_Ring Lib_Real Lib_Res CCM_Model SBM_Model SBM_Spec MatIf_Model MatIf_Spec MatIf_Proofs MatIf_Toy.
From Verif Require CCM_Spec.
Import ListNotations.
Local Open Scope R_scope.

(** C76, DenseMatrix, any tolerance *)
Theorem C76_dense : forall tol M rows cols, dense_behaves (dm_fromTol (small_tol tol) M rows cols) rows cols (cut tol M).
Proof. exact dense_tol. Qed.
Print Assumptions C76_dense.
Example C76_case : cut (1 / 2) M22 0%nat 0%nat = 3 /\ cut (1 / 2) M22 0%nat 1%nat = 0 /\ cut (1 / 2) M22 1%nat 1%nat = -2.
Proof. exact cut22. Qed.

(** C76, SparseBlockMatrixWrapper: any tolerance and any earlier content. Afterwards exactly the blocks with an entry above the tolerance are stored. *)
Theorem C76_block : forall tol M (m : sbm R) rbi cbi A, represents m rbi cbi A ->
  exists m', sw_fromTol (above_tol tol) M (total rbi) (total cbi) m = Ok m' /\ block_behaves m' (total rbi) (total cbi) (cut tol M) /\
    forall br bc, SBM_Model.get m' br bc <> None <-> block_needed (above_tol tol) rbi cbi M br bc.
Proof. exact block_tol. Qed.
Print Assumptions C76_block.
(* a block stored before that is not needed any more *)
Example C76_block_case : exists m A, represents m lay12 lay12 A /\ SBM_Model.get (m : sbm R) 1 0 <> None /\ ~ block_needed (above_tol (1 / 2)) lay12 lay12 M22 1 0 /\ block_needed (above_tol (1 / 2)) lay12 lay12 M22 1 1.
Proof. exact stale. Qed.
(** ... and a matrix of another size than the block layout is refused *)
Theorem C76_block_size : forall tol M (m : sbm R) rows cols, rows <> total (s_rbi m) \/ cols <> total (s_cbi m) -> sw_fromTol (above_tol tol) M rows cols m = Throw.
Proof. exact (fun tol => sw_size (above_tol tol)). Qed.
Print Assumptions C76_block_size.
Example C76_block_size_case : 3%nat <> total (s_rbi (fresh lay12 lay12 : sbm R)). Proof. exact (Nat.neq_succ_diag_l 2). Qed.

(** C76, CompressedColumnMatrix: any earlier content without appended diagonal, tolerances that are not negative *)
Theorem C76_column_partial : forall tol M rows cols (m : ccm R), 0 <= tol -> c_diag m = false ->
  exists m', CCM_Model.fromDense (above_tol (Rabs tol)) M rows cols m = Ok m' /\ column_behaves m' rows cols (cut tol M).
Proof. exact column_tol. Qed.
Print Assumptions C76_column_partial.
Example C76_column_partial_case : 0 <= 1 / 2 /\ c_diag (construct 3 4 : ccm R) = false. Proof. split; [lra|reflexivity]. Qed.
(** Missing: with an appended diagonal the matrix read in keeps the flag, and a product with a vector of the right size throws (CompressedColumnMatrix.hpp L417-436, L380) ... *)
Theorem C76_appended_diagonal_refuted : ~ (forall keep (M : mat Z) rows cols (m m' : ccm Z), CCM_Model.fromDense keep M rows cols m = Ok m' -> forall x y s, x <> y -> fst (s x) = cols -> cc_right m' x y s <> Throw).
Proof. exact (fun H => match flag_wrong with ex_intro _ m (ex_intro _ m' (conj _ (conj E T))) => H _ _ _ _ m m' E 0%nat 1%nat one_store (Nat.neq_succ_diag_r 0) eq_refl T end). Qed.
Print Assumptions C76_appended_diagonal_refuted.
(** ... and a negative tolerance keeps every entry in the other two, but counts as its absolute value here *)
Theorem C76_negative_tolerance_refuted : exists tol (M : mat R) (m : ccm R), c_diag m = false /\ forall m' v w, CCM_Model.fromDense (above_tol (Rabs tol)) M 1 1 m = Ok m' ->
  CCM_Model.element 0 m' 0 0 = Ok v -> dm_element (dm_fromTol (small_tol tol) M 1 1) 0 0 = Ok w -> v <> w.
Proof. exact negative_wrong. Qed.
Print Assumptions C76_negative_tolerance_refuted.

(** C76, products in place (x and y the same vector): right for DenseMatrix ... *)
Theorem C76_in_place_dense : forall (K : Type) (R : CRing K) (m : dmat K) x s,
  (fst (s x) = dm_cols m -> result_is s x (dm_rows m) (fun r => ksum (dm_cols m) (fun c => kmul (dm_M m r c) (snd (s x) c))) (dm_right m x x s)) /\
  (fst (s x) = dm_rows m -> result_is s x (dm_cols m) (fun c => ksum (dm_rows m) (fun r => kmul (dm_M m r c) (snd (s x) r))) (dm_left m x x s)).
Proof. exact (fun K R => @dense_in_place K R). Qed.
Print Assumptions C76_in_place_dense.
Example C76_in_place_dense_case : fst (one_store 0%nat) = dm_cols (dm_fromDense (fun _ _ => 1%Z) 2 1). Proof. reflexivity. Qed.
(** ... always zero for the block matrix (the destination, hence the source, is set to zero first) and so wrong; wrong for the compressed columns as well *)
Theorem C76_in_place_block : forall (K : Type) (R : CRing K) (m : sbm K) x s, total (s_rbi m) = total (s_cbi m) -> fst (s x) = total (s_cbi m) -> result_is s x (total (s_rbi m)) (fun _ => k0) (sw_right m x x s).
Proof. exact (fun K R => @block_in_place_zero K R). Qed.
Print Assumptions C76_in_place_block.
Example C76_in_place_block_case : total (s_rbi blockOne) = total (s_cbi blockOne) /\ fst (one_store 0%nat) = total (s_cbi blockOne). Proof. exact (conj eq_refl eq_refl). Qed.
Theorem C76_in_place_refuted :
  (exists (m : sbm Z) A s, represents m [1%nat] [1%nat] A /\ fst (s 0%nat) = 1%nat /\ ~ result_is s 0 1 (fun r => ksum 1 (fun c => kmul (A r c) (snd (s 0%nat) c))) (sw_right m 0 0 s)) /\
  (exists (m : ccm Z) A s, CCM_Spec.well_formed m /\ CCM_Spec.stands_for 0%Z m A /\ c_diag m = false /\ c_rows m = 1%nat /\ c_cols m = 1%nat /\ fst (s 0%nat) = 1%nat /\
     ~ result_is s 0 1 (fun r => ksum 1 (fun c => kmul (A r c) (snd (s 0%nat) c))) (cc_right m 0 0 s)).
Proof. exact (conj block_in_place_wrong column_in_place_wrong). Qed.
Print Assumptions C76_in_place_refuted.
