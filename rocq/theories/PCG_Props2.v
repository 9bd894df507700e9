(** * C47 over the real numbers: conjugate gradients finish within as many iterations as there are unknowns *)
From Coq Require Import Reals Arith List ZArith Bool.
From Verif Require Import Lib_Ring Lib_Real Lib_Res SBM_Model SBM_Spec PCG_Model PCG_Spec PCG_Spec2 PCG_Proofs2 PCG_Toy2.
Import ListNotations.
Open Scope R_scope.

(** For a symmetric positive definite matrix whose diagonal blocks are stored and inverted, and a tolerance that is not negative: unless the user sets a limit
    below the number of unknowns, the preconditioned residual r . J r of the returned x is within the threshold, however the loop was left. The result does not
    depend on what a division by 0 gives. *)
Theorem C47_converges : forall (div : R -> R -> R) (inv : nat -> mat R -> mat R) (A : sbm R) l S,
  quotient div -> holds_upper A l S -> sym (total l) S -> pos_def (total l) S -> diagonal_stored A -> inverts l inv A ->
  forall P b, p_ix P = [] \/ p_ix P = index_of A -> 0 <= p_tol P -> enough (total l) P ->
  exists P' x broke z0 z, pcg_solve div rleb rgtb (1/2) inv P A b = Ok (P', x, true, broke) /\
    preconditioned l inv A b z0 /\ preconditioned l inv A (residual (total l) S b x) z /\
    vdot (total l) (residual (total l) S b x) z <= threshold rgtb P (vdot (total l) b z0).
Proof. exact solve_converges. Qed.
Print Assumptions C47_converges.
Example C47_converges_case : quotient Rdiv /\ holds_upper A3 lay2 S3 /\ total lay2 = 3%nat /\ sym (total lay2) S3 /\ pos_def (total lay2) S3 /\ diagonal_stored A3 /\ inverts lay2 inv12 A3 /\
  p_ix (P3 (1/1000) (-1)) = [] /\ 0 <= p_tol (P3 (1/1000) (-1)) /\ enough (total lay2) (P3 (1/1000) (-1)).
Proof. exact (conj quot (conj A3_holds (conj eq_refl (conj S3_sym (conj S3_pos (conj A3_diag (conj A3_inv (conj eq_refl (conj tol3 (or_introl eq_refl)))))))))). Qed.

(** With tolerance 0 and no residual left from an earlier solve, the returned x solves S x = b. *)
Theorem C47_exact : forall (div : R -> R -> R) (inv : nat -> mat R -> mat R) (A : sbm R) l S,
  quotient div -> holds_upper A l S -> sym (total l) S -> pos_def (total l) S -> diagonal_stored A -> inverts l inv A ->
  forall P b, p_ix P = [] \/ p_ix P = index_of A -> p_tol P = 0 -> p_res P <= 0 -> enough (total l) P ->
  exists P' x broke, pcg_solve div rleb rgtb (1/2) inv P A b = Ok (P', x, true, broke) /\ forall p, (p < total l)%nat -> mvmul (total l) S x p = b p.
Proof. exact solve_exact. Qed.
Print Assumptions C47_exact.
Example C47_exact_case : exists P' x broke, pcg_solve Rdiv rleb rgtb (1/2) inv12 (P3 0 (-1)) A3 (fun i => INR (i + 1)) = Ok (P', x, true, broke) /\ x 0%nat = 1/2 /\ x 1%nat = 0 /\ x 2%nat = 3/2.
Proof. exact case3. Qed.

(** Whatever the limit, the returned x satisfies b . x = x . S x: unless it is zero it points downhill, and it is the minimum of the quadratic model along its own line. *)
Theorem C47_truncated : forall (div : R -> R -> R) (inv : nat -> mat R -> mat R) (A : sbm R) l S,
  quotient div -> holds_upper A l S -> sym (total l) S -> pos_def (total l) S -> diagonal_stored A -> inverts l inv A ->
  forall P b, p_ix P = [] \/ p_ix P = index_of A -> 0 <= p_tol P ->
  exists P' x broke, pcg_solve div rleb rgtb (1/2) inv P A b = Ok (P', x, true, broke) /\
    vdot (total l) b x = vdot (total l) x (mvmul (total l) S x) /\ ((exists i, (i < total l)%nat /\ x i <> 0) -> 0 < vdot (total l) b x) /\
    forall t, vdot (total l) x (mvmul (total l) S x) - 2 * vdot (total l) b x <= vdot (total l) (vscale t x) (mvmul (total l) S (vscale t x)) - 2 * vdot (total l) b (vscale t x).
Proof. exact solve_truncated. Qed.
Print Assumptions C47_truncated.
Example C47_truncated_case : quotient Rdiv /\ holds_upper A3 lay2 S3 /\ sym (total lay2) S3 /\ pos_def (total lay2) S3 /\ diagonal_stored A3 /\ inverts lay2 inv12 A3 /\
  p_ix (P3 (1/1000) 1) = [] /\ 0 <= p_tol (P3 (1/1000) 1) /\ ~ enough (total lay2) (P3 (1/1000) 1).
Proof. exact (conj quot (conj A3_holds (conj S3_sym (conj S3_pos (conj A3_diag (conj A3_inv (conj eq_refl (conj tol3 not_enough)))))))). Qed.
