(** * C48, C49, C61: the linear system solvers *)
From Coq Require Import Arith Lia List ZArith Bool Sorting.Sorted.
From Verif Require Import Lib_Ring Lib_Res CCM_Model SBM_Model SBM_Spec SBM_Proofs LinSolve_Model LinSolve_Spec LinSolve_Proofs LinSolve_Proofs2 LinSolve_Proofs3 LinSolve_Toy.
From Verif Require CCM_Spec.
Import ListNotations.

(** C48, sparse Cholesky: a solve, damped or not, leaves the whole state of the solver exactly as it was; so does every later solve, with the same answer.
    Fails only if the conditioner has the wrong length, which setConditioner refuses. *)
Theorem C48_sparse_cholesky : forall (K : Type) (R : CRing K) csolve (x : sc K), CCM_Spec.well_formed (sc_J x) -> c_diag (sc_J x) = false -> length (sc_c x) = c_rows (sc_J x) ->
  exists sol, sc_solve csolve x = Ok (x, sol).
Proof. exact (fun K R => @c48_sparse K R). Qed.
Print Assumptions C48_sparse_cholesky.
Example C48_sparse_cholesky_case : match S2 with Ok x => match sc_solve (csolveZ (fun _ => sol2)) x with Ok (_, Some y) => (y 0, y 1) = (1, -1)%Z | _ => False end | _ => False end.
Proof. exact sparse_run. Qed.

(** C48, sparse QR *)
Theorem C48_sparse_qr : forall (K : Type) (R : CRing K) qr colscale norm (x : sc K) x' sol, CCM_Spec.well_formed (sc_J x) -> c_diag (sc_J x) = false -> length (sc_c x) = c_rows (sc_J x) ->
  sq_solve qr colscale norm x = Ok (x', sol) -> x' = x.
Proof. exact (fun K R => @c48_sparse_qr K R). Qed.
Print Assumptions C48_sparse_qr.

(** C48, dense QR: the Jacobian, the errors and everything else are as before the solve, and a second solve gives the same step *)
Theorem C48_dense : forall (K : Type) (R : CRing K) hqr garbage (x : dq K) use, dq_use x = Some use -> depends_on_input hqr -> exists x' dx, dq_solve hqr garbage x = Ok (x', dx) /\
  meq (dq_rows x) (dq_cols x) (dq_J x') (dq_J x) /\ veq (dq_rows x) (dq_e x') (dq_e x) /\ dq_rows x' = dq_rows x /\ dq_cols x' = dq_cols x /\ dq_rhs x' = dq_rhs x /\ dq_c x' = dq_c x /\ dq_use x' = dq_use x /\
  exists x'' dx', dq_solve hqr garbage x' = Ok (x'', dx') /\ veq (dq_cols x) dx' dx.
Proof. exact (fun K R => @c48_dense K R). Qed.
Print Assumptions C48_dense.
Example C48_dense_case : dq_use D2 = Some true /\ depends_on_input hqr2.
Proof. exact (conj eq_refl (fun _ _ _ _ _ _ _ _ i _ => eq_refl)). Qed.

(** C48, block Cholesky: what remains true. The right-hand side and the conditioner stay, without conditioner everything stays; with a conditioner c
    each solve adds c^2 - c to the stored diagonal, so the Hessian is unchanged exactly where c^2 = c. *)
Theorem C48_block_partial : forall (K : Type) (R : CRing K) bsolve l (b : bc K), layout_ok l -> good (bc_H b) l l ->
  exists b', bc_solve bsolve b = Ok (b', match on_diagonal (vsq (bc_c b)) (bc_H b) with Ok H1 => bsolve (if bc_use b then H1 else bc_H b) (bc_rhs b) | _ => None end) /\
    bc_rhs b' = bc_rhs b /\ bc_c b' = bc_c b /\ bc_use b' = bc_use b /\ good (bc_H b') l l /\
    (bc_use b = false -> b' = b) /\
    (bc_use b = true -> forall r c i j, r < length l -> c < length l -> i < bsize l r -> j < bsize l c ->
       blk (bc_H b') r c i j = kadd (blk (bc_H b) r c i j) (if (r =? c) && (i =? j) then ksub (kmul (bc_c b (base l r + i)) (bc_c b (base l r + i))) (bc_c b (base l r + i)) else k0)).
Proof. exact (fun K R => @c48_block K R). Qed.
Print Assumptions C48_block_partial.
Example C48_block_partial_case : match bc_solve (bsolveZ divide) b1 with
  | Ok (b2, Some x) => match bc_solve (bsolveZ divide) b2 with Ok (_, Some y) => (x 0, y 0, blk (bc_H b2) 0 0 0 0) = (7, 5, 3)%Z | _ => False end | _ => False end.
Proof. exact twice. Qed.
(** the property as stated fails: the second solve of the same system gives another step *)
Theorem C48_block_refuted : exists bsolve (b : bc Z) l b' x b'' x', symmetric_solver bsolve /\ square_good (bc_H b) l /\
  bc_solve bsolve b = Ok (b', Some x) /\ bc_solve bsolve b' = Ok (b'', Some x') /\ blk (bc_H b') 0 0 0 0 <> blk (bc_H b) 0 0 0 0 /\ x 0 <> x' 0.
Proof. exact block_refuted. Qed.
Print Assumptions C48_block_refuted.
(** a covariance query that ends with an exception leaves the damped Hessian behind *)
Theorem C48_covariance_refuted : exists pattern (b b' : bc Z) l, square_good (bc_H b) l /\ bc_cov pattern b = Ok (b', None) /\ blk (bc_H b') 0 0 0 0 <> blk (bc_H b) 0 0 0 0.
Proof. exact cov_refuted. Qed.
Print Assumptions C48_covariance_refuted.

(** C49, block Cholesky: for any error terms, any weights, any old content of the Hessian and any conditioner, a step that is returned solves
    (J^T J + diag(c)^2) dx = - J^T e, where the columns of J are multiplied by the scaling of their design variable. *)
Theorem C49_block : forall (K : Type) (R : CRing K) bsolve s l ts H A J' c use, layout_ok l -> represents H l l A -> Forall (lterm_ok l) ts -> scaled_cols l s (J_of l ts) J' -> symmetric_solver bsolve ->
  exists H' rhs b' sol, bc_build s ts H = Ok (H', rhs) /\ bc_solve bsolve (mkBc H' rhs c use) = Ok (b', sol) /\
    forall x, sol = Some x -> normal_equations (jrows ts) (total l) J' (e_of ts) (fun p => if use : bool then c p else k0) x.
Proof. exact (fun K R => @c49_block K R). Qed.
Print Assumptions C49_block.
Example C49_block_case : layout_ok lay2 /\ Forall (lterm_ok lay2) ts2 /\ represents (fresh lay2 lay2) lay2 lay2 (fun _ _ => 0%Z) /\ symmetric_solver (bsolveZ gs2) /\
  match bc_solve (bsolveZ gs2) (mkBc (fst H2) (snd H2) (vz [1; 2]%Z) true) with Ok (_, Some x) => (x 0, x 1) = (1, -1)%Z | _ => False end /\
  map (fun r => map (J_of lay2 ts2 r) (seq 0 2)) (seq 0 3) = [[1; 1]; [0; 1]; [0; 2]]%Z /\ map (e_of ts2) (seq 0 3) = [-1; 4; 3]%Z.
Proof. exact (conj lay2_ok (conj ts2_ok (conj (fresh_rep lay2 lay2_ok) (conj (bsolveZ_ok gs2) (conj block_run J2))))). Qed.

(** C49, sparse Cholesky, for any error terms, weights and conditioner; the scaling does not enter *)
Theorem C49_sparse_cholesky : forall (K : Type) (R : CRing K) csolve l ts e0 c use m, buildable l ts m -> length c = total l -> aat_solver csolve ->
  exists x sol, sc_build l ts (eval_errors ts 0 e0) c use m = Ok x /\ sc_solve csolve x = Ok (x, sol) /\
    forall dx, sol = Some dx -> normal_equations (jrows ts) (total l) (J_of l ts) (e_of ts) (fun p => if use : bool then nth p c k0 else k0) dx.
Proof. exact (fun K R => @c49_sparse_cholesky K R). Qed.
Print Assumptions C49_sparse_cholesky.
Example C49_sparse_cholesky_case : buildable lay2 ts2 (construct 0 0) /\ aat_solver (csolveZ (fun _ => sol2)) /\
  match S2 with Ok x => match sc_solve (csolveZ (fun _ => sol2)) x with Ok (_, Some y) => (y 0, y 1) = (1, -1)%Z | _ => False end | _ => False end.
Proof. exact sparse_case. Qed.

(** C49, dense QR, for either value that the flag may have *)
Theorem C49_dense : forall (K : Type) (R : CRing K) hqr garbage l ts e0 x use, layout_ok l -> Forall (lterm_ok l) ts -> dq_rows x = jrows ts -> dq_cols x = total l -> dq_use x = Some use ->
  solves_problem hqr (if use : bool then jrows ts + total l else jrows ts) (total l) (above_diag use (jrows ts) (J_of l ts) (dq_c x)) (above_zero (jrows ts) (e_of ts)) ->
  exists x' dx, dq_solve hqr garbage (dq_build l ts (eval_errors ts 0 e0) x) = Ok (x', dx) /\
    normal_equations (jrows ts) (total l) (J_of l ts) (e_of ts) (fun p => if use : bool then dq_c x p else k0) dx.
Proof. exact (fun K R => @c49_dense K R). Qed.
Print Assumptions C49_dense.
Example C49_dense_case : Forall (lterm_ok lay2) ts2 /\ dq_rows D2 = jrows ts2 /\ dq_cols D2 = total lay2 /\
  solves_problem hqr2 (jrows ts2 + total lay2) (total lay2) (above_diag true (jrows ts2) (J_of lay2 ts2) (dq_c D2)) (above_zero (jrows ts2) (e_of ts2)).
Proof. exact (conj ts2_ok (conj eq_refl (conj eq_refl hqr2_ok))). Qed.

(** C49, sparse QR: the step solves the system without damping, whatever conditioner was asked for; with column scaling as long as no scaling factor is zero *)
Theorem C49_sparse_qr_partial : forall (K : Type) (R : CRing K) qr colscale norm l ts e0 c use m x x' dx, buildable l ts m ->
  (forall rows cols A b y, qr rows cols A b = Some y -> least_squares rows cols A b y) ->
  (norm = true -> forall A q a, (forall r p, r < jrows ts -> p < total l -> A r p = J_of l ts r p) -> q < total l -> kmul (colscale (jrows ts) A q) a = k0 -> a = k0) ->
  sq_build l ts (eval_errors ts 0 e0) c use m = Ok x -> sq_solve qr colscale norm x = Ok (x', Some dx) ->
  normal_equations (jrows ts) (total l) (J_of l ts) (e_of ts) (fun _ => k0) dx.
Proof. exact (fun K R => @c49_sparse_qr K R). Qed.
Print Assumptions C49_sparse_qr_partial.
Example C49_sparse_qr_partial_case : match sq_build lay2 ts2 (eval_errors ts2 0 (fun _ => 0%Z)) [1; 2]%Z true (construct 0 0) with
  | Ok x => match sq_solve (qrZ (fun _ => vz [3; -2]%Z)) (fun _ _ _ => 1%Z) true x with Ok (_, Some y) => (y 0, y 1) = (3, -2)%Z | _ => False end | _ => False end.
Proof. exact qr_run. Qed.

(** the property as stated fails three times: with a scaling other than one the solvers return different steps, and since every step is multiplied by the
    scaling when it is applied, the step of the block solver reaches the minimum and the one of the sparse solver does not; *)
Theorem C49_scaling_refuted : exists bsolve csolve l ts (s : nat -> Z) e H rhs x b' dx x' dx', symmetric_solver bsolve /\ aat_solver csolve /\ Forall (lterm_ok l) ts /\
  bc_build s ts (fresh l l) = Ok (H, rhs) /\ bc_solve bsolve (mkBc H rhs (fun _ => 0%Z) false) = Ok (b', Some dx) /\
  sc_build l ts (eval_errors ts 0 e) [] false (construct 0 0) = Ok x /\ sc_solve csolve x = Ok (x', Some dx') /\
  (forall p, p < jrows ts -> (J_of l ts p 0%nat * (s 0%nat * dx 0%nat) + e_of ts p)%Z = 0%Z) /\ ~ (forall p, p < jrows ts -> (J_of l ts p 0%nat * (s 0%nat * dx' 0%nat) + e_of ts p)%Z = 0%Z).
Proof. exact scaling_refuted. Qed.
Print Assumptions C49_scaling_refuted.
(** sparse QR ignores the conditioner; *)
Theorem C49_sparse_qr_refuted : exists qr colscale l ts (c : list Z) e x x' dx, (forall rows cols A b y, qr rows cols A b = Some y -> least_squares rows cols A b y) /\ buildable l ts (construct 0 0) /\ length c = total l /\
  sq_build l ts (eval_errors ts 0 e) c true (construct 0 0) = Ok x /\ sq_solve qr colscale false x = Ok (x', Some dx) /\
  ~ normal_equations (jrows ts) (total l) (J_of l ts) (e_of ts) (fun p => nth p c 0%Z) dx.
Proof. exact qr_refuted. Qed.
Print Assumptions C49_sparse_qr_refuted.
(** dense QR reads a flag that nothing has set *)
Theorem C49_dense_flag_refuted : forall (K : Type) (R : CRing K) hqr garbage l ts e rows cols use, dq_solve hqr garbage (dq_build l ts e (dq_new (K := K) rows cols e use)) = UB.
Proof. exact (fun K R hqr garbage l ts e rows cols use => eq_refl). Qed.
Print Assumptions C49_dense_flag_refuted.

(** C61: the number that the dog-leg policy asks for is |J rhs|^2 *)
Theorem C61_sparse : forall (K : Type) (R : CRing K) l ts e c use m x, buildable l ts m -> sc_build l ts e c use m = Ok x ->
  sc_rhsJtJrhs x = Ok (vdot (jrows ts) (mvmul (total l) (J_of l ts) (sc_rhs x)) (mvmul (total l) (J_of l ts) (sc_rhs x))).
Proof. exact (fun K R => @c61_sparse K R). Qed.
Print Assumptions C61_sparse.
Example C61_sparse_case : buildable lay2 ts2 (construct 0 0) /\ match S2 with Ok x => sc_rhsJtJrhs x = Ok 469%Z | _ => False end.
Proof. exact sparse_rhs_case. Qed.
Theorem C61_dense : forall (K : Type) (R : CRing K) l ts e x, layout_ok l -> Forall (lterm_ok l) ts -> dq_rows x = jrows ts -> dq_cols x = total l -> let y := dq_build l ts e x in
  dq_rhsJtJrhs y = vdot (jrows ts) (mvmul (total l) (J_of l ts) (dq_rhs y)) (mvmul (total l) (J_of l ts) (dq_rhs y)).
Proof. exact (fun K R => @c61_dense K R). Qed.
Print Assumptions C61_dense.
Example C61_dense_case : dq_rhsJtJrhs (dq_build lay2 ts2 (eval_errors ts2 0 (fun _ => 0%Z)) D2) = 469%Z. Proof. exact dense_469. Qed.
(** the block solver is right if no error term involves two design variables; in general it is not, because only the stored upper half of the Hessian is multiplied *)
Theorem C61_block_partial : forall (K : Type) (R : CRing K) s l ts H A J' H' rhs c use, layout_ok l -> represents H l l A -> Forall (lterm_ok l) ts -> scaled_cols l s (J_of l ts) J' ->
  bc_build s ts H = Ok (H', rhs) ->
  (forall b b' i j, b < b' -> b' < length l -> i < bsize l b -> j < bsize l b' -> mmul (jrows ts) (mtr J') J' (base l b + i) (base l b' + j) = k0) ->
  bc_rhsJtJrhs (mkBc H' rhs c use) = vdot (jrows ts) (mvmul (total l) J' rhs) (mvmul (total l) J' rhs).
Proof. exact (fun K R => @c61_block K R). Qed.
Print Assumptions C61_block_partial.
Example C61_block_partial_case : Forall (lterm_ok lay2) tsC /\ forall b b' i j, b < b' -> b' < length lay2 -> i < bsize lay2 b -> j < bsize lay2 b' ->
  mmul (jrows tsC) (mtr (J_of lay2 tsC)) (J_of lay2 tsC) (base lay2 b + i) (base lay2 b' + j) = 0%Z.
Proof. exact (conj tsC_ok tsC_apart). Qed.
Theorem C61_block_refuted : exists l ts H rhs (c : vec Z) use, layout_ok l /\ Forall (lterm_ok l) ts /\ bc_build (fun _ => 1%Z) ts (fresh l l) = Ok (H, rhs) /\
  bc_rhsJtJrhs (mkBc H rhs c use) <> vdot (jrows ts) (mvmul (total l) (J_of l ts) rhs) (mvmul (total l) (J_of l ts) rhs).
Proof. exact rhs_refuted. Qed.
Print Assumptions C61_block_refuted.

(** ... where rhs is minus the gradient, - J^T e, in each of the three solvers (the vector along which the dog-leg policy takes its steepest descent step) *)
Theorem C61_rhs_sparse : forall (K : Type) (R : CRing K) l ts e0 (c : list K) use m x, buildable l ts m -> sc_build l ts (eval_errors ts 0 e0) c use m = Ok x ->
  forall p, p < total l -> sc_rhs x p = kopp (ksum (jrows ts) (fun r => kmul (J_of l ts r p) (e_of ts r))).
Proof. exact (fun K R => @rhs_sparse K R). Qed.
Print Assumptions C61_rhs_sparse.
Example C61_rhs_sparse_case : buildable lay2 ts2 (construct 0 0) /\ match S2 with Ok x => map (sc_rhs x) (seq 0 2) = [1; -9]%Z | _ => False end.
Proof. split; [exact buildable2 | vm_compute; reflexivity]. Qed.
Theorem C61_rhs_dense : forall (K : Type) (R : CRing K) l ts e0 (x : dq K), layout_ok l -> Forall (lterm_ok l) ts -> dq_rows x = jrows ts -> dq_cols x = total l ->
  forall p, p < total l -> dq_rhs (dq_build l ts (eval_errors ts 0 e0) x) p = kopp (ksum (jrows ts) (fun r => kmul (J_of l ts r p) (e_of ts r))).
Proof. exact (fun K R => @rhs_dense K R). Qed.
Print Assumptions C61_rhs_dense.
Example C61_rhs_dense_case : layout_ok lay2 /\ Forall (lterm_ok lay2) ts2 /\ dq_rows D2 = jrows ts2 /\ dq_cols D2 = total lay2 /\ map (dq_rhs (dq_build lay2 ts2 (eval_errors ts2 0 (fun _ => 0%Z)) D2)) (seq 0 2) = [1; -9]%Z.
Proof. exact (conj lay2_ok (conj ts2_ok (conj eq_refl (conj eq_refl eq_refl)))). Qed.
(** the block solver's Jacobian is the one with scaled columns *)
Theorem C61_rhs_block : forall (K : Type) (R : CRing K) s l ts (H : sbm K) A J' H' rhs, layout_ok l -> represents H l l A -> Forall (lterm_ok l) ts -> scaled_cols l s (J_of l ts) J' ->
  bc_build s ts H = Ok (H', rhs) -> forall p, p < total l -> rhs p = kopp (ksum (jrows ts) (fun r => kmul (J' r p) (e_of ts r))).
Proof. exact (fun K R => @rhs_block K R). Qed.
Print Assumptions C61_rhs_block.
Example C61_rhs_block_case : layout_ok lay2 /\ represents (fresh lay2 lay2 : sbm Z) lay2 lay2 (fun _ _ => 0%Z) /\ Forall (lterm_ok lay2) ts2 /\ map (snd H2) (seq 0 2) = [1; -9]%Z.
Proof. exact (conj lay2_ok (conj (fresh_rep lay2 lay2_ok) (conj ts2_ok eq_refl))). Qed.
