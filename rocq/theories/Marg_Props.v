(** * C50: marginalization *)
From Coq Require Import Arith Lia List ZArith Bool Reals.
From Verif Require Import Lib_Ring Lib_Real Lib_Res SBM_Model LinSolve_Model LinSolve_Spec Marg_Model Marg_Spec Marg_Proofs Marg_Proofs2 Marg_Toy.
Import ListNotations.
Local Open Scope nat_scope.

(** C50: whenever marginalize returns a prior, there is one constant such that for all values [diffs] of the remaining variables the cost of the prior plus this
    constant is the minimum of |J x + e|^2 over the removed variables, J and e being the weighted Jacobian and errors of the error terms.
    Partial: the QR decomposition is assumed right for this Jacobian, and the columns of the removed variables must be linearly independent
    (see C50_rank_refuted). *)
Theorem C50_prior_partial : forall qr inverse (w w' : world R) remove numTop p cov, marginalize qr inverse w remove numTop = Ok (w', Some (p, cov)) ->
  w_ok w -> qr_good qr w -> independent (w_rows w) (removed_dim w remove) (w_J w) ->
  exists c, forall diffs, differences (skipn (Z.to_nat remove) (w_dvs w)) diffs -> exists v, prior_cost p diffs = Ok v /\
    is_minimum (fun x1 => cost (w_rows w) (w_cols w) (w_J w) (w_e w) (both (removed_dim w remove) x1 (joined diffs))) (v + c).
Proof. exact c50_prior. Qed.
Print Assumptions C50_prior_partial.
Example C50_prior_partial_case :
  (exists p cov, marginalize qra inv2 wa 1 2 = Ok (wa, Some (p, cov)) /\ p_R p 0 0 = 3%R /\ p_d p 0 = (5/3)%R) /\ w_ok wa /\ qr_good qra wa /\ independent (w_rows wa) (removed_dim wa 1) (w_J wa).
Proof. exact case_prior. Qed.

(** without independence it fails: a rank deficient Jacobian only causes a warning, and the prior loses information *)
Theorem C50_rank_refuted : ~ (forall qr inverse (w w' : world R) remove numTop p cov, marginalize qr inverse w remove numTop = Ok (w', Some (p, cov)) -> w_ok w -> qr_good qr w ->
  exists c, forall diffs, differences (skipn (Z.to_nat remove) (w_dvs w)) diffs -> exists v, prior_cost p diffs = Ok v /\
    is_minimum (fun x1 => cost (w_rows w) (w_cols w) (w_J w) (w_e w) (both (removed_dim w remove) x1 (joined diffs))) (v + c)).
Proof. exact rank_refuted. Qed.
Print Assumptions C50_rank_refuted.

(** C50, the second half: block indices, columns and row bases are afterwards what they were, and the prior refers to the variables that were not removed *)
Theorem C50_restored : forall (K : Type) (RK : CRing K) qr inverse (w w' : world K) remove numTop p cov,
  marginalize qr inverse w remove numTop = Ok (w', Some (p, cov)) -> w' = w /\ p_dvs p = skipn (Z.to_nat remove) (w_dvs w).
Proof. exact c50_restored. Qed.
Print Assumptions C50_restored.
Example C50_restored_case : exists p cov, marginalize qra inv2 wa 1 2 = Ok (wa, Some (p, cov)) /\ p_R p 0 0 = 3%R /\ p_d p 0 = (5/3)%R.
Proof. exact run_a. Qed.
(** if marginalize ends with an exception they are not *)
Theorem C50_exception_refuted : exists qr inverse (w w' : world R) remove numTop, w_ok w /\ marginalize qr inverse w remove numTop = Ok (w', None) /\
  map v_block (w_dvs w') <> map v_block (w_dvs w) /\ map t_row (w_ets w') <> map t_row (w_ets w).
Proof. exact exception_refuted. Qed.
Print Assumptions C50_exception_refuted.
(** asking for more covariance rows than there are columns reads outside of R, on an otherwise good problem *)
Theorem C50_top_rows_refuted : exists qr inverse (w : world R) remove numTop, w_ok w /\ qr_good qr w /\ independent (w_rows w) (w_cols w) (w_J w) /\ marginalize qr inverse w remove numTop = UB.
Proof. exact top_refuted. Qed.
Print Assumptions C50_top_rows_refuted.

(** the covariance handed out is the inverse of J^T J, if all columns are independent *)
Theorem C50_covariance : forall qr inverse (w w' : world R) remove numTop p cov, marginalize qr inverse w remove numTop = Ok (w', Some (p, cov)) ->
  w_ok w -> qr_good qr w -> inverse_good inverse (w_cols w) -> independent (w_rows w) (w_cols w) (w_J w) ->
  two_sided_inverse (w_cols w) (mmul (w_rows w) (mtr (w_J w)) (w_J w)) cov.
Proof. exact c50_covariance. Qed.
Print Assumptions C50_covariance.
Example C50_covariance_case : inverse_good inv2 (w_cols wa) /\ independent (w_rows wa) (w_cols wa) (w_J wa).
Proof. exact case_cov. Qed.

(** the Jacobians of the prior: applied to changes of the remaining variables they give R times the changes of the minimal differences *)
Theorem C50_prior_jacobian : forall (K : Type) (RK : CRing K) (p : prior K) Ms deltas i, map fst Ms = map fst deltas -> list_sum (map fst Ms) = p_dim p ->
  apply_jacobians (prior_jacobians p 0 Ms) deltas i = mvmul (p_dim p) (p_R p) (joined (apply_M Ms deltas)) i.
Proof. exact c50_jacobian. Qed.
Print Assumptions C50_prior_jacobian.
Example C50_prior_jacobian_case : map fst Mz = map fst dz /\ map (apply_jacobians (prior_jacobians pz 0 Mz) dz) [0; 1; 2] = [22; 7; 5]%Z.
Proof. exact run_jac. Qed.
