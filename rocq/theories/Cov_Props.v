(** * Marginal covariances: property C46

    [factor n Lp Li Lx L]: the arrays are the compressed columns of the lower-triangular L, diagonal first. [factorises n perm L A]: A, reordered by the
    permutation, is L L^T. The result of std::sort may be any permutation of the requests. *)
From Coq Require Import Arith List ZArith Bool Sorting.Permutation.
From Verif Require Import Lib_Ring Lib_Res CCM_Model SBM_Model SBM_Spec Cov_Model Cov_Spec Cov_Proofs2 Cov_Toy.
Import ListNotations.

(** C46: the diagonal blocks of the inverse of A, written row-major into the blocks of the caller. *)
Theorem C46_diagonal_blocks : forall (K : Type) (R : CRing K) (recip : K -> K) sort n Lp Li Lx L perm A Ai covBlocks l,
  factor n Lp Li Lx L -> (forall r, r < n -> kmul (recip (L r r)) (L r r) = k1) -> fits_int n -> permutation n perm -> (forall q, Permutation (sort q) q) ->
  factorises n perm L A -> meq n n (mmul n A Ai) mid -> layout_ok l -> total l <= n -> length covBlocks = length l ->
  exists M out, setCholeskyFactor recip n Lp Li Lx perm = Ok M /\ computeCovariance sort M covBlocks l = Ok out /\ length out = length l /\
    forall b rr cc z, b < length l -> rr < bsize l b -> cc < bsize l b -> nth b out z (rr * bsize l b + cc) = Ai (base l b + rr) (base l b + cc).
Proof. exact (fun K R => @covariance_inverse K R). Qed.
Print Assumptions C46_diagonal_blocks.
(** C46: any requested blocks, in any order and with repetitions; no other block is stored. *)
Theorem C46_requested_blocks : forall (K : Type) (R : CRing K) (recip : K -> K) sort n Lp Li Lx L perm A Ai l blockIndices,
  factor n Lp Li Lx L -> (forall r, r < n -> kmul (recip (L r r)) (L r r) = k1) -> fits_int n -> permutation n perm -> (forall q, Permutation (sort q) q) ->
  factorises n perm L A -> meq n n (mmul n A Ai) mid -> l <> [] -> layout_ok l -> total l <= n -> (forall b, In b blockIndices -> fst b < length l /\ snd b < length l) ->
  exists M s, setCholeskyFactor recip n Lp Li Lx perm = Ok M /\ computeCovarianceBlocks sort M l blockIndices = Ok s /\ well_formed s /\ s_rbi s = l /\ s_cbi s = l /\
    (forall r c, get s r c <> None <-> In (r, c) blockIndices) /\
    forall r c i j, In (r, c) blockIndices -> i < bsize l r -> j < bsize l c -> blk s r c i j = Ai (base l r + i) (base l c + j).
Proof. exact (fun K R => @blocks_inverse K R). Qed.
Print Assumptions C46_requested_blocks.
Example C46_case : factor 3 cLp cLi cLx cL /\ (forall r, r < 3 -> kmul (self (cL r r)) (cL r r) = k1) /\ fits_int 3 /\ permutation 3 cperm /\ (forall q, Permutation (keep q) q) /\
  factorises 3 cperm cL cA /\ meq 3 3 (mmul 3 cA cAi) mid /\ layout_ok clay /\
  match (do M <- setCholeskyFactor self 3 cLp cLi cLx cperm; computeCovariance keep M [fun _ => 0%Z; fun _ => 0%Z] clay) with Ok o => map (fun f => map f [0; 1; 2; 3]) o | _ => [] end
    = [[1; -3; -3; 14]; [1; 0; 0; 0]]%Z.
Proof. exact (conj cfactor (conj crecip (conj cfits (conj cpermutation (conj ckeep (conj cfactorises (conj cinverse (conj clay_ok crun)))))))). Qed.

(** From 46341 rows on the int index of the last entry overflows. *)
Theorem C46_large_refuted : forall (K : Type) (R : CRing K) (M : mcc K) fuel m, (Z.of_nat (m_n M) * Z.of_nat (m_n M) > int_max + 1)%Z ->
  computeEntry M fuel (m_n M - 1) (m_n M - 1) m = UB.
Proof. exact (fun K R => @too_large K R). Qed.
Print Assumptions C46_large_refuted.
Example C46_large_case : (Z.of_nat (m_n big) * Z.of_nat (m_n big) > int_max + 1)%Z.
Proof. exact big_is. Qed.
