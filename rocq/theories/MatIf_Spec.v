(** * What a Matrix is expected to do *)
From Coq Require Import Arith Lia List ZArith NArith Bool Reals.
From Verif Require Import Lib_Ring Lib_Real Lib_Res CCM_Model SBM_Model SBM_Spec MatIf_Model.
Import ListNotations.
Local Open Scope nat_scope.

Section Spec.
  Context {K : Type} {R : CRing K}.
  (* y holds this vector now, every other vector of the caller is as before *)
  Definition result_is (s : store K) (y n : nat) (v : vec K) (r : res (store K)) : Prop :=
    exists s', r = Ok s' /\ fst (s' y) = n /\ (forall i, i < n -> snd (s' y) i = v i) /\ forall z, z <> y -> s' z = s z.
  (* an object behaves like the rows x cols matrix A: its elements, its dense copy, A x and A^T x, whatever the destination held before *)
  Definition behaves (element : nat -> nat -> res K) (dense : res (mat K)) (right_ left_ : nat -> nat -> store K -> res (store K)) (rows cols : nat) (A : mat K) : Prop :=
    (forall r c, r < rows -> c < cols -> element r c = Ok (A r c)) /\
    (exists D, dense = Ok D /\ forall r c, r < rows -> c < cols -> D r c = A r c) /\
    (forall x y s, x <> y -> fst (s x) = cols -> result_is s y rows (fun r => ksum cols (fun c => kmul (A r c) (snd (s x) c))) (right_ x y s)) /\
    (forall x y s, x <> y -> fst (s x) = rows -> result_is s y cols (fun c => ksum rows (fun r => kmul (A r c) (snd (s x) r))) (left_ x y s)).
  Definition dense_behaves (m : dmat K) rows cols A : Prop := dm_rows m = rows /\ dm_cols m = cols /\ behaves (dm_element m) (Ok (dm_M m)) (dm_right m) (dm_left m) rows cols A.
  Definition block_behaves (m : sbm K) rows cols A : Prop := total (s_rbi m) = rows /\ total (s_cbi m) = cols /\ behaves (SBM_Model.element m) (Ok (SBM_Model.toDense m)) (sw_right m) (sw_left m) rows cols A.
  Definition column_behaves (m : ccm K) rows cols A : Prop := c_rows m = rows /\ c_cols m = cols /\ behaves (CCM_Model.element k0 m) (CCM_Model.toDense k0 m) (cc_right m) (cc_left m) rows cols A.
  (* some entry of the block is kept *)
  Definition block_needed (keep : K -> bool) (rbi cbi : list nat) (M : mat K) (br bc : nat) : Prop :=
    br < length rbi /\ bc < length cbi /\ exists i j, i < bsize rbi br /\ j < bsize cbi bc /\ keep (M (base rbi br + i) (base cbi bc + j)) = true.
End Spec.
(* the comparisons, over the reals *)
Definition small_tol (tol x : R) : bool := if Rle_dec (Rabs x) tol then true else false.
Definition above_tol (tol x : R) : bool := if Rlt_dec tol (Rabs x) then true else false.
(* entries up to the tolerance count as zero *)
Definition cut (tol : R) (M : mat R) : mat R := fun r c => if Rle_dec (Rabs (M r c)) tol then 0%R else M r c.
