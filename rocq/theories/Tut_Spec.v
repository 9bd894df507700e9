(** * The tutorial: vocabulary of the statements *)
From Coq Require Import Arith List ZArith Bool Reals.
From Verif Require Import Lib_Ring Lib_Real Lib_Res MatrixStack_Model DesignVar_Base Jacobian_Model Scalar_Model Terms_Model Terms_Spec Tut_Model.
Import ListNotations.
Local Open Scope R_scope.

(* the sum of a_1 .. a_k *)
Fixpoint sum_to (a : nat -> R) (k : nat) : R := match k with O => 0 | S k' => sum_to a k' + a (S k') end.
(* the true position at time k and the position by the noisy odometry *)
Definition truth (nz : noise) (k : nat) : R := sum_to (n_uniform nz) k.
Definition odometry (nz : noise) (k : nat) : R := n_uniform nz k + sigma_u * n_odometry nz k.
Definition measurement (nz : noise) (k : nat) : R := 1 / (true_w - truth nz k) + sigma_n * n_measurement nz k.
(* the design variables: the wall and the positions *)
Definition wall : dvr := mkDv 0 true 0%Z 0%Z 1 1.
Definition position (k : nat) : dvr := mkDv (S k) true (Z.of_nat (S k)) (Z.of_nat (S k)) 1 1.
(* the squared errors add up to c at the state s *)
Fixpoint total_cost (ts : list term) (s : state) : res R := match ts with [] => Ok 0 | t :: ts' => do a <- term_cost t s; do b <- total_cost ts' s; Ok (a + b) end.
(* the Jacobian row of a term, given by its calls, times a change of the design variables *)
Definition row_times (ops : list (@cop R)) (delta : nat -> R) : R := fold_right (fun o a => match o with CAdd d J => d_at J 0%nat 0%nat * delta (dv_id d) + a | _ => a end) 0 ops.
(* random odometry is not negative, as sm::random::uniform() *)
Definition forward (nz : noise) : Prop := forall k, 0 <= n_uniform nz k.
Definition noise_free (nz : noise) : Prop := forall k, n_odometry nz k = 0 /\ n_measurement nz k = 0.
(* the wall is at none of the positions 1 .. K-1 *)
Definition off_wall (K : nat) (s : state) : Prop := forall k, (1 <= k < K)%nat -> xval wall s <> xval (position k) s.
(* the state in which every variable has its true value *)
Definition true_state (nz : noise) : state := fun i _ => match i with O => true_w | S k => truth nz k end.
(* the problem of the tutorial for K time steps *)
Definition motion_at (nz : noise) (k : nat) : term := TMotion (position (k - 1)) (position k) (odometry nz k) (sigma_u * sigma_u).
Definition observation_at (nz : noise) (k : nat) : term := TObservation (position k) wall (measurement nz k) (sigma_n * sigma_n).
Definition tutorial_problem (nz : noise) (K : nat) (p : problem) : Prop :=
  p_dvs p = wall :: map position (seq 0 K) /\
  p_terms p = TPrior (position 0) (truth nz 0) (sigma_x * sigma_x) :: flat_map (fun k => [motion_at nz k; observation_at nz k]) (seq 1 (K - 1)) /\
  xval wall (p_start p) = true_w + n_wall nz /\ forall k, (k < K)%nat -> xval (position k) (p_start p) = sum_to (odometry nz) k.
