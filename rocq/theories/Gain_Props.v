(** * C72: the steps of the linear solvers are the best steps for the linearised cost and descend the real one

    [best l s ts c x]: no step has a smaller cost |e + J y|^2 + |diag(c) y|^2 than x (weighted, the Jacobians of every design variable times its scaling), no other step has the same
    if all c are non-zero, and unless the cost is stationary this cost falls and every short step along x lowers the real, robustified cost. *)
From Coq Require Import Arith Lia List ZArith NArith Bool Reals.
From Verif Require Import Lib_Ring Lib_Real Lib_Res CCM_Model SBM_Model SBM_Spec LinSolve_Model LinSolve_Spec Gain_Spec Gain_Proofs3 Gain_Toy.
Import ListNotations.
Local Open Scope R_scope.

(** The block solver, with the scaling. *)
Theorem C72_block : forall bsolve s l ts H A c use, layout_ok l -> represents H l l A -> Forall (lterm_ok l) ts -> symmetric_solver bsolve ->
  exists H' rhs b' sol, bc_build s ts H = Ok (H', rhs) /\ bc_solve bsolve (mkBc H' rhs c use) = Ok (b', sol) /\
    forall x, sol = Some x -> best l s ts (fun p => if use : bool then c p else 0) x.
Proof. exact block_best. Qed.
Print Assumptions C72_block.
Example C72_block_case : layout_ok layR /\ represents (fresh layR layR : sbm R) layR layR (fun _ _ => 0) /\ Forall (lterm_ok layR) tsR /\ symmetric_solver (bsolveR (vr [1; -1])) /\
  (exists H' rhs b' x, bc_build (fun _ => 1) tsR (fresh layR layR) = Ok (H', rhs) /\ bc_solve (bsolveR (vr [1; -1])) (mkBc H' rhs (vr [1; 2]) true) = Ok (b', Some x) /\ (x 0%nat, x 1%nat) = (1, -1)) /\
  ~ stationary layR (fun _ => 1) tsR /\ map fst toy_tas = tsR /\ Forall (along_ok layR (fun _ => 1) (vr [1; -1])) toy_tas.
Proof. exact block_caseR. Qed.

(** The sparse Cholesky solver, for scalings of one (C49_scaling_refuted shows what happens otherwise). *)
Theorem C72_sparse_cholesky_partial : forall csolve l ts e0 c use m, buildable l ts m -> length c = total l -> aat_solver csolve ->
  exists x sol, sc_build l ts (eval_errors ts 0 e0) c use m = Ok x /\ sc_solve csolve x = Ok (x, sol) /\
    forall dx, sol = Some dx -> best l (fun _ => 1) ts (fun p => if use : bool then nth p c 0 else 0) dx.
Proof. exact sparse_best. Qed.
Print Assumptions C72_sparse_cholesky_partial.
Example C72_sparse_cholesky_case : buildable layR tsR (construct 0 0) /\ aat_solver (csolveR (vr [1; -1])) /\
  exists x y, sc_build layR tsR (eval_errors tsR 0 (fun _ => 0)) [1; 2] true (construct 0 0) = Ok x /\ sc_solve (csolveR (vr [1; -1])) x = Ok (x, Some y) /\ (y 0%nat, y 1%nat) = (1, -1).
Proof. exact (conj buildableR (conj (csolveR_ok _) sparse_runR)). Qed.

(** The dense QR solver, for scalings of one and a flag that has been set. *)
Theorem C72_dense_partial : forall hqr garbage l ts e0 x use, layout_ok l -> Forall (lterm_ok l) ts -> dq_rows x = jrows ts -> dq_cols x = total l -> dq_use x = Some use ->
  solves_problem hqr (if use : bool then jrows ts + total l else jrows ts)%nat (total l) (above_diag use (jrows ts) (J_of l ts) (dq_c x)) (above_zero (jrows ts) (e_of ts)) ->
  exists x' dx, dq_solve hqr garbage (dq_build l ts (eval_errors ts 0 e0) x) = Ok (x', dx) /\ best l (fun _ => 1) ts (fun p => if use : bool then dq_c x p else 0) dx.
Proof. exact dense_best. Qed.
Print Assumptions C72_dense_partial.
Example C72_dense_case : Forall (lterm_ok layR) tsR /\ dq_rows DR = jrows tsR /\ dq_cols DR = total layR /\ dq_use DR = Some true /\
  solves_problem (fun _ _ _ _ => vr [1; -1]) (jrows tsR + total layR) (total layR) (above_diag true (jrows tsR) (J_of layR tsR) (dq_c DR)) (above_zero (jrows tsR) (e_of tsR)).
Proof. exact (conj tsR_ok (conj eq_refl (conj eq_refl (conj eq_refl hqrR_ok)))). Qed.

(** The sparse QR solver: the best step without damping, whatever damping was asked for (C49_sparse_qr_refuted); its example is C49_sparse_qr_partial_case. *)
Theorem C72_sparse_qr_partial : forall qr colscale norm l ts e0 c use m x x' dx, buildable l ts m ->
  (forall rows cols A b y, qr rows cols A b = Some y -> least_squares rows cols A b y) ->
  (norm = true -> forall A q a, (forall r p, (r < jrows ts)%nat -> (p < total l)%nat -> A r p = J_of l ts r p) -> (q < total l)%nat -> colscale (jrows ts) A q * a = 0 -> a = 0) ->
  sq_build l ts (eval_errors ts 0 e0) c use m = Ok x -> sq_solve qr colscale norm x = Ok (x', Some dx) -> best l (fun _ => 1) ts (fun _ => 0) dx.
Proof. exact qr_best. Qed.
Print Assumptions C72_sparse_qr_partial.
