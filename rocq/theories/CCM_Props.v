(** * Compressed-column matrix and Jacobian transpose builder: properties C38 - C41

    [reached z m a]: the matrix object [m] is reached from a constructed one by the public calls, and [a] is the dense matrix the calls
    describe (CCM_Spec.v). [allowed] leaves out the calls that the refuted theorems below are about. *)
From Coq Require Import Arith List ZArith Bool Sorting.Sorted Sorting.Permutation.
From Verif Require Import Lib_Ring Lib_Res Lib_Float Threads_Model CCM_Model CCM_Spec CCM_Proofs CCM_Proofs3 CCM_Toy.
Import ListNotations.

(** C38: after any history, element access, checked access, dense conversion and column access give the same matrix, and the storage is well formed. *)
Theorem C38_access : forall (K : Type) (z : K) (m : ccm K) a, reached z m a -> well_formed m /\ c_rows m = d_rows a /\ c_cols m = d_cols a /\
  (forall r c, r < d_rows a -> c < d_cols a -> element z m r c = Ok (d_mat a r c) /\ value z m r c = Ok (d_mat a r c)) /\
  (forall r c, d_rows a <= r \/ d_cols a <= c -> value z m r c = Throw) /\
  (exists D, toDense z m = Ok D /\ forall r c, r < d_rows a -> c < d_cols a -> D r c = d_mat a r c) /\
  (forall c, c < d_cols a -> exists col, column z m c = Ok col /\ StronglySorted lt (map fst col) /\ (forall r v, In (r, v) col -> r < d_rows a /\ d_mat a r c = v) /\
     (forall r, r < d_rows a -> ~ In r (map fst col) -> d_mat a r c = z)).
Proof. exact (fun K z m a => c38_reached z m a). Qed.
Print Assumptions C38_access.
Example C38_access_case : reached 0%Z m2 dense2 /\ element 0%Z m2 2 1 = Ok 12%Z /\ element 0%Z m2 0 3 = Ok 0%Z /\ d_mat dense2 2 1 = 12%Z.
Proof. exact (conj reached2 (conj eq_refl (conj eq_refl eq_refl))). Qed.

(** C38: every allowed call does what it means, and is refused exactly when it has no meaning. *)
Theorem C38_calls : forall (K : Type) (z : K) (m : ccm K) a o, reached z m a -> allowed o m a ->
  match meaning z o a with Some a1 => exists m1, exec z o m = Ok m1 /\ reached z m1 a1 | None => exec z o m = Throw end.
Proof. exact (fun K z m a o => c38_step z m a o). Qed.
Print Assumptions C38_calls.
Example C38_calls_case : allowed (OAppend 2 [blA; blB]) m1 dense1 /\ allowed (OAppend 2 [blA; blB]) m2 dense2 /\ meaning 0%Z (OAppend 2 [blA; blB]) dense2 = None.
Proof. exact (conj jac_toy (conj jac_toy eq_refl)). Qed.

(** C38: a matrix of doubles without NaN is read back (up to the sign of zeros) from what fromDense stores. *)
Theorem C38_from_dense : forall (M : nat -> nat -> b64) rows cols (m : ccm b64), (forall r c, r < rows -> c < cols -> isnan (M r c) = false) ->
  exists m', fromDense (fun x => fgt (fabs x) (fabs f0)) M rows cols m = Ok m' /\ well_formed m' /\ c_rows m' = rows /\ c_cols m' = cols /\
    forall r c, r < rows -> c < cols -> exists v, element f0 m' r c = Ok v /\ feq v (M r c) = true.
Proof. exact from_dense_doubles. Qed.
Print Assumptions C38_from_dense.
Example C38_from_dense_case : forall r c : nat, r < 2 -> c < 2 -> isnan ((fun r c : nat => if Nat.eqb r c then fz 3 else inf) r c) = false.
Proof. intros [|r] [|c] _ _; try reflexivity. cbn. destruct (Nat.eqb r c); reflexivity. Qed.

(** C38 fails for matrices with NaN entries: they are read back as zero. *)
Theorem C38_nan_refuted : exists (M : nat -> nat -> b64) m', isnan (M 0 0) = true /\
  fromDense (fun x => fgt (fabs x) (fabs f0)) M 1 1 (construct 0 0) = Ok m' /\ element f0 m' 0 0 = Ok f0.
Proof. exact nan_dropped. Qed.
Print Assumptions C38_nan_refuted.

(** C38: the arrays of a cholmod_sparse (sorted columns, nzmax entries in use) become the matrix they hold. *)
Theorem C38_cholmod : forall (K : Type) (z : K) (m : ccm K) a rows cols p i x, reached z m a -> d_diag a = false -> well_formed (mkCcm rows cols x i p false false) ->
  exists m', fromCholmod rows cols p i x m = Ok m' /\ c_rows m' = rows /\ c_cols m' = cols /\
    forall r c, r < rows -> c < cols ->
      (forall k, nth c p 0 <= k < nth (c + 1) p 0 -> nth k i 0 = r -> element z m' r c = Ok (nth k x z)) /\
      ((forall k, nth c p 0 <= k < nth (c + 1) p 0 -> nth k i 0 <> r) -> element z m' r c = Ok z).
Proof. exact (fun K z m a => c38_cholmod z m a). Qed.
Print Assumptions C38_cholmod.
Example C38_cholmod_case : allowed (OCholmod 3 3 [0; 2; 2; 3] [0; 2; 1] [4; -1; 6]%Z) m1 dense1 /\
  match fromCholmod 3 3 [0; 2; 2; 3] [0; 2; 1] [4; -1; 6]%Z m1 with Ok m' => element 0%Z m' 2 0 = Ok (-1)%Z /\ element 0%Z m' 2 1 = Ok 0%Z | _ => False end.
Proof. exact (conj cholmod_toy (conj eq_refl eq_refl)). Qed.

(** C38, what does not hold: arrays with unused room at the end are refused, and the mark of an appended diagonal survives. *)
Theorem C38_cholmod_refuted :
  (exists (m : ccm Z) a p i x extra, reached 0%Z m a /\ allowed (OCholmod 3 3 p i x) m a /\ fromCholmod 3 3 p (i ++ [extra]) (x ++ [0%Z]) m = Throw) /\
  (exists (m : ccm Z) a p i x m' m'', reached 0%Z m a /\ well_formed (mkCcm 3 3 x i p false false) /\ fromCholmod 3 3 p i x m = Ok m' /\ popDiagonal m' = Ok m'' /\ c_cols m'' = 0).
Proof. exact (conj cholmod_slack cholmod_flag). Qed.
Print Assumptions C38_cholmod_refuted.

(** C39: the products are those of the matrix. Missing: with an appended diagonal they are those of the matrix without it. *)
Theorem C39_products_partial : forall (K : Type) (R : CRing K) (m : ccm K) a (x : vec K), reached k0 m a ->
  let n := if d_diag a then d_cols a - d_rows a else d_cols a in
  (exists y, rightMultiply m n x = Ok y /\ forall r, r < d_rows a -> y r = ksum n (fun c => d_mat a r c * x c)%K) /\
  (exists y, leftMultiply m (d_rows a) x = Ok y /\ forall c, c < n -> y c = ksum (d_rows a) (fun r => d_mat a r c * x r)%K) /\
  (forall k, k <> n -> rightMultiply m k x = Throw) /\ (forall k, k <> d_rows a -> leftMultiply m k x = Throw).
Proof. exact (fun K R m a x => c39_products m a x). Qed.
Print Assumptions C39_products_partial.
Example C39_products_case : reached k0 m1 dense1 /\ match rightMultiply m1 2 (fun c => Z.of_nat c + 1)%Z with Ok y => y 2 | _ => 0%Z end = 26%Z.
Proof. exact (conj reached1 eq_refl). Qed.

(** C39 fails with an appended diagonal: M x is refused, and the accepted product is not that of the matrix. *)
Theorem C39_diagonal_refuted : exists (m : ccm Z) a, reached k0 m a /\ d_diag a = true /\ (forall x, rightMultiply m (d_cols a) x = Throw) /\
  (exists x y, rightMultiply m (d_cols a - d_rows a) x = Ok y /\ y 0 <> ksum (d_cols a) (fun c => d_mat a 0 c * x c)%Z).
Proof. exact diagonal_refused. Qed.
Print Assumptions C39_diagonal_refuted.

(** C40: pushing gives [M D]; popping restores the object exactly; a second push is refused; an update is as if the new diagonal had been pushed. *)
Theorem C40_push : forall (K : Type) (z : K) (m : ccm K) a d, reached z m a -> d_diag a = false -> length d = d_rows a ->
  exists m1 a1, pushDiagonal d m = Ok m1 /\ reached z m1 a1 /\ d_rows a1 = d_rows a /\ d_cols a1 = d_cols a + d_rows a /\
    (forall r c, d_mat a1 r c = if c <? d_cols a then d_mat a r c else if r =? c - d_cols a then nth r d z else z) /\
    popDiagonal m1 = Ok m /\ (forall d', pushDiagonal d' m1 = Throw) /\
    (forall d', length d' = d_rows a -> pushDiagonal d' m = updateDiagonal d' m1).
Proof. exact (fun K z m a d => c40_push z m a d). Qed.
Print Assumptions C40_push.
Example C40_push_case : reached 0%Z m1 dense1 /\ d_diag dense1 = false /\ length [7; 8; 9]%Z = d_rows dense1 /\ pushDiagonal [7; 8; 9]%Z m1 = Ok m2 /\ popDiagonal m2 = Ok m1.
Proof. exact (conj reached1 (conj eq_refl (conj eq_refl (conj eq_refl eq_refl)))). Qed.

(** C40: a pop (or update) without push is refused; after any history ending with an appended diagonal, pop gives the matrix without it, and pushing
    that diagonal again gives the same object; another push is refused. *)
Theorem C40_pop : forall (K : Type) (z : K) (m : ccm K) a, reached z m a ->
  (d_diag a = false -> popDiagonal m = Throw /\ (forall d, updateDiagonal d m = Throw)) /\
  (d_diag a = true -> (forall d, pushDiagonal d m = Throw) /\ exists m0 a0 d, popDiagonal m = Ok m0 /\ reached z m0 a0 /\ d_diag a0 = false /\
     d_rows a0 = d_rows a /\ d_cols a = d_cols a0 + d_rows a /\ (forall r c, c < d_cols a0 -> d_mat a0 r c = d_mat a r c) /\ length d = d_rows a /\ pushDiagonal d m0 = Ok m).
Proof. exact (fun K z m a => c40_pop z m a). Qed.
Print Assumptions C40_pop.
Example C40_pop_case : reached 0%Z m2 dense2 /\ d_diag dense2 = true.
Proof. exact (conj reached2 eq_refl). Qed.

(** C40: clear followed by init, as the builder does it, gives the zero matrix of the requested shape with empty storage.
    Missing: clear alone and init alone, see the refuted theorems. *)
Theorem C40_reset_partial : forall (K : Type) (z : K) (m : ccm K) a rows cols, reached z m a ->
  exists m1, exec z (OReset rows cols) m = Ok m1 /\ reached z m1 (mkDense rows cols (fun _ _ => z) false (d_acc a)) /\ c_vals m1 = [] /\ c_ri m1 = [] /\ c_cp m1 = repeat 0 (cols + 1).
Proof. exact (fun K z m a => c40_reset z m a). Qed.
Print Assumptions C40_reset_partial.
Example C40_reset_case : exec 0%Z (OReset 4 2) m2 = Ok (mkCcm 4 2 [] [] [0; 0; 0] false false).
Proof. exact eq_refl. Qed.

(** C40 fails for clear alone: an access inside of the matrix is undefined, and the diagonal counts as still appended. *)
Theorem C40_clear_refuted : exists (m : ccm Z) a, reached 0%Z m a /\ d_cols a = 5 /\ element 0%Z (clear m) 0 4 = UB /\ c_diag (clear m) = true /\
  (forall d, pushDiagonal d (clear m) = Throw).
Proof. exact clear_breaks. Qed.
Print Assumptions C40_clear_refuted.
(** C40 fails for init alone: the old values stay, and every append afterwards throws. *)
Theorem C40_init_refuted : exists (m : ccm Z) a, reached 0%Z m a /\ c_vals (init 3 0 m) <> [] /\ (forall d, pushDiagonal d (init 3 0 m) = Throw) /\
  (exists jc, jacobian_ok 3 2 jc /\ appendJacobians 0%Z 2 jc (init 3 0 m) = Throw).
Proof. exact init_breaks. Qed.
Print Assumptions C40_init_refuted.
(** C40 fails after fromDense on a matrix with a diagonal: a push is refused, and a pop removes columns of the new matrix. *)
Theorem C40_from_dense_refuted : exists (m : ccm Z) a m' m'', reached 0%Z m a /\
  fromDense (fun x => negb (x =? 0)%Z) (fun _ _ => 4)%Z 1 1 m = Ok m' /\ element 0%Z m' 0 0 = Ok 4%Z /\
  (forall d, pushDiagonal d m' = Throw) /\ popDiagonal m' = Ok m'' /\ c_cols m'' = 0.
Proof. exact from_dense_breaks. Qed.
Print Assumptions C40_from_dense_refuted.
(** C40: an update with a vector of another length reads out of bounds. *)
Theorem C40_update_refuted : exists (m : ccm Z) a d, reached 0%Z m a /\ d_diag a = true /\ updateDiagonal d m = UB.
Proof. exact update_breaks. Qed.
Print Assumptions C40_update_refuted.

(** C41: for any number of threads, whatever the order in which the writes of all threads take effect and whatever values were stored before,
    the result is one well-formed matrix that stands for the stacked transposed Jacobians; one thread computes it too.
    Missing: an empty list of error terms (with more than one thread a division by zero, see C10) or of design variables. *)
Theorem C41_builder_partial : forall (K : Type) (z : K) dvs d0 es (m : ccm K) nThreads, dvs <> [] ->
  let rows := j_base (last dvs d0) + j_dim (last dvs d0) in Forall (term_ok rows) es ->
  (c_acc m = true \/ Forall (fun e => e_jac e <> []) es) -> (0 < Z.of_nat (length es) <= 2147483647)%Z -> (0 <= nThreads)%Z ->
  exists m1 ps V js, initStructure z dvs es m = Ok (m1, ps) /\ length ps = length es /\ c_rows m1 = rows /\ c_cols m1 = list_sum (map (@e_dim K) es) /\
    setupThreadedJob_ranges (Z.of_nat (length es)) nThreads = Ok js /\
    (forall d ws a, Permutation ws (flat_map (fun p => flat_map (fun i => term_writes (nth i (combine es ps) d)) (seq (fst p) (snd p - fst p))) (nat_ranges js)) ->
       length a = length (c_vals m1) -> puts ws a = Ok V) /\
    build (combine es ps) m1 = Ok (with_values m1 V) /\
    well_formed (with_values m1 V) /\ stands_for z (with_values m1 V) (stacked z es).
Proof. exact (fun K z dvs d0 es m n => c41_builder z dvs d0 es m n). Qed.
Print Assumptions C41_builder_partial.
Example C41_builder_case : Forall (term_ok (j_base (last [dvA; dvB] dvA) + j_dim (last [dvA; dvB] dvA))) [et1; et2] /\ Forall (fun e : eterm Z => e_jac e <> []) [et1; et2].
Proof. exact (conj et_ok et_some). Qed.

(** C41: no two error terms, so no two threads, write the same entry. *)
Theorem C41_disjoint : forall (K : Type) (z : K) dvs d0 es (m m1 : ccm K) ps, dvs <> [] -> Forall (term_ok (j_base (last dvs d0) + j_dim (last dvs d0))) es ->
  (c_acc m = true \/ Forall (fun e => e_jac e <> []) es) -> initStructure z dvs es m = Ok (m1, ps) ->
  forall i j e f p q k v w, i <> j -> nth_error (combine es ps) i = Some (e, p) -> nth_error (combine es ps) j = Some (f, q) ->
    In (k, v) (term_writes (e, p)) -> In (k, w) (term_writes (f, q)) -> False.
Proof. exact (fun K z dvs d0 es m m1 ps => c41_disjoint z dvs d0 es m m1 ps). Qed.
Print Assumptions C41_disjoint.
Example C41_disjoint_case : match initStructure 0%Z [dvA; dvB] [et1; et2] (construct 0 0) with Ok (m, ps) => map p_start ps = [0; 6] /\ c_ri m = [0; 1; 2; 0; 1; 2; 1; 2] | _ => False end.
Proof. exact (conj eq_refl eq_refl). Qed.
