(** * C81: the program of the tutorial poses the problem it describes *)
From Coq Require Import Arith List ZArith Bool Reals.
From Verif Require Import Lib_Ring Lib_Real Lib_Res MatrixStack_Model DesignVar_Base Jacobian_Model Jacobian_Spec Scalar_Model Terms_Model Terms_Spec Tut_Model Tut_Spec Tut_Proofs Tut_Proofs2 Tut_Toy.
Import ListNotations.
Local Open Scope R_scope.

(** C81: for every number of time steps K >= 1 the optimiser gets the wall and K positions, one prior, and for each later step an odometry term between neighbouring positions and an
    observation of the wall; the positions start at the summed odometry. Missing: K = 0, see C81_zero_refuted. *)
Theorem C81_problem_partial : forall nz K, (1 <= K)%Z -> forward nz -> exists p, main 2 K nz = Ok (Optimise p) /\ tutorial_problem nz (Z.to_nat K) p.
Proof. exact main_builds. Qed.
Print Assumptions C81_problem_partial.
Example C81_problem_ex : exists p, main 2 3 nzT = Ok (Optimise p) /\ tutorial_problem nzT 3 p /\ off_wall 3 (p_start p) /\ length (p_dvs p) = 4%nat /\ length (p_terms p) = 5%nat.
Proof. exact toy_problem. Qed.

(** C81: that problem is well formed: K + 1 different active variables, 2 K - 1 terms, and every term refers to different variables of the problem. *)
Theorem C81_well_formed : forall nz K p, (1 <= K)%nat -> tutorial_problem nz K p -> NoDup (map dv_id (p_dvs p)) /\ Forall (fun d => dv_active d = true) (p_dvs p) /\ length (p_dvs p) = S K /\
  length (p_terms p) = (2 * K - 1)%nat /\ forall t, In t (p_terms p) -> NoDup (map dv_id (term_dvs t)) /\ incl (term_dvs t) (p_dvs p).
Proof. exact well_formed. Qed.
Print Assumptions C81_well_formed.

(** C81: away from the wall the Jacobians of all terms are the derivatives of their errors. *)
Theorem C81_jacobians : forall nz K p al s t, tutorial_problem nz K p -> (0 < al)%nat -> off_wall K s -> In t (p_terms p) -> jacobians_right al (term_dvs t) (term_error t) (term_calls t) s.
Proof. exact tutorial_jacobians. Qed.
Print Assumptions C81_jacobians.

(** C81: without noise the cost is zero at the true wall and positions and nowhere else. *)
Theorem C81_truth : forall nz K p, tutorial_problem nz K p -> (2 <= K)%nat -> forward nz -> noise_free nz ->
  total_cost (p_terms p) (true_state nz) = Ok 0 /\
  forall s c, total_cost (p_terms p) s = Ok c -> 0 <= c /\ (c = 0 <-> forall d, In d (p_dvs p) -> xval d s = xval d (true_state nz)).
Proof. exact truth_is_minimum. Qed.
Print Assumptions C81_truth.
Example C81_truth_ex : forward nzT /\ noise_free nzT. Proof. exact nzT_ok. Qed.

(** C81: for K >= 2 the Jacobian has full column rank at every state away from the wall, so every step is determined. *)
Theorem C81_observable : forall nz K p s delta, tutorial_problem nz K p -> (2 <= K)%nat -> off_wall K s ->
  (forall t, In t (p_terms p) -> exists ops, term_calls t s = Ok ops /\ row_times ops delta = 0) -> forall d, In d (p_dvs p) -> delta (dv_id d) = 0.
Proof. exact full_rank. Qed.
Print Assumptions C81_observable.

(** C81: a wrong number of arguments or a negative K ends with status 1. *)
Theorem C81_arguments : forall nz argc K, (argc <> 2 -> main argc K nz = Ok (Ends 1))%Z /\ (K < 0 -> main 2 K nz = Ok (Ends 1))%Z.
Proof. exact main_other. Qed.
Print Assumptions C81_arguments.

(** C81, what does not hold: K = 0 (also what atoi makes of a text without number) writes past the end of an empty vector; with K = 1 the cost does not depend on the wall, which is
    estimated nevertheless; the first guess of the wall can be at a position, where the first evaluation divides by zero. *)
Theorem C81_zero_refuted : forall nz, main 2 0 nz = UB.
Proof. exact main_zero. Qed.
Print Assumptions C81_zero_refuted.
Theorem C81_one_refuted : forall nz, forward nz -> exists p, main 2 1 nz = Ok (Optimise p) /\ In wall (p_dvs p) /\ forall s s', xval (position 0) s = xval (position 0) s' -> total_cost (p_terms p) s = total_cost (p_terms p) s'.
Proof. exact one_step_free. Qed.
Print Assumptions C81_one_refuted.
Theorem C81_start_refuted : exists nz p, forward nz /\ main 2 3 nz = Ok (Optimise p) /\ total_cost (p_terms p) (p_start p) = UB.
Proof. exact start_on_wall. Qed.
Print Assumptions C81_start_refuted.
