(** * C87: Gauss-Newton from a good first guess

    The parameters are a vector of n numbers, a step is added to it (DesignVariableVector, EuclideanPoint, Scalar; C15), e x is the stacked error of m numbers, Jac x its Jacobian.  [regular xs rho K mu]: xs
    is stationary and up to the distance rho from it the Jacobian linearises the error up to K/2 distance^2, changes at most with the rate K and has full rank with margin mu.  [rate K mu r delta] =
    K delta / (2 sqrt mu) + K r / mu.  [solves]: what the linear solver returns solves J^T J y = - J^T e (C49); [solver_works]: it does not fail near xs.  [n_optimize ... (gn ...) opt x]: Optimizer2::optimize
    with the Gauss-Newton policy, started at x (Nlin_Model.v), [n_status]: the status it returns, [n_it]: its iterations. *)
From Coq Require Import Reals List Bool ZArith.
From Verif Require Import Lib_Ring Lib_Real Policy_Model Lin_Model Nlin_Model Nlin_Spec Nlin_Toy GNConv_Spec GNConv_Proofs GNConv_Proofs2 GNConv_Proofs3 GNConv_Toy.
From Verif Require Optimizer2_Model.
Open Scope R_scope.

(** a run that starts at a distance at most rho with q = rate(rho) < 1 ends; after k iterations the distance has been multiplied by q^k or less; if the error vanishes at xs, the number of right
    digits doubles with each iteration; the status DX means that the distance is at most q / (1 - q) sqrt(n) convergenceDeltaX; the run does not go on for longer than needed to get the steps below
    convergenceDeltaX; and if the iteration limit allows for that, it reports DX or DOBJECTIVE *)
Theorem C87_converges : forall n m e Jac solver xs rho K mu, regular n m e Jac xs rho K mu -> rate K mu (norm m (e xs)) rho < 1 -> solves n m solver -> solver_works n m e Jac solver xs rho ->
  forall opt x, dist n x xs <= rho -> let q := rate K mu (norm m (e xs)) rho in let po := gn n m e Jac solver in
  exists l, n_optimize (vec R) vadd n m e po opt x = Some l /\ let k := Z.to_nat (n_it _ po l) in let far := dist n (n_x _ po l) xs in
    far <= q ^ k * dist n x xs /\
    (norm m (e xs) = 0 -> K / (2 * sqrt mu) * far <= (K / (2 * sqrt mu) * dist n x xs) ^ (2 ^ k)) /\
    (n_status _ po opt l = Optimizer2_Model.DX -> (1 - q) * far <= q * (sqrt (INR n) * o_dx opt)) /\
    ((2 <= k)%nat -> o_dx opt < (1 + q) * q ^ (k - 2) * dist n x xs) /\
    ((2 <= o_max opt)%Z -> (1 + q) * q ^ Z.to_nat (o_max opt - 2) * dist n x xs <= o_dx opt ->
       n_status _ po opt l = Optimizer2_Model.DX \/ n_status _ po opt l = Optimizer2_Model.DOBJECTIVE).
Proof. exact gn_converges. Qed.
Print Assumptions C87_converges.
(** and there is no other stationary state that near *)
Theorem C87_unique : forall n m e Jac xs rho K mu, regular n m e Jac xs rho K mu -> rate K mu (norm m (e xs)) rho < 1 ->
  forall x, dist n x xs <= rho -> (forall p, (p < n)%nat -> gradient m e Jac x p = 0) -> forall p, (p < n)%nat -> x p = xs p.
Proof. exact stationary_unique. Qed.
Print Assumptions C87_unique.
(** the hypotheses are met by the errors x + x^2/8 and 1/2 with rho = 1, K = 1/4, mu = 9/16; q is 7/18 *)
Example C87_case : regular 1 2 ge gJ zero 1 (1 / 4) (9 / 16) /\ rate (1 / 4) (9 / 16) (norm 2 (ge zero)) 1 < 1 /\ solves 1 2 gs /\ solver_works 1 2 ge gJ gs zero 1 /\ dist 1 (fun _ => 1) zero <= 1.
Proof. exact g_case. Qed.

(** the line-search policy makes the same steps and reports the same if the error vanishes at xs, the Jacobian stretches vectors at most by Lam and the region is small enough: no step is taken back *)
Theorem C87_line_search : forall n m e Jac solver xs rho K mu Lam, regular n m e Jac xs rho K mu -> norm m (e xs) = 0 ->
  (forall x v, dist n x xs <= rho -> norm m (mvmul n (Jac x) v) <= Lam * norm n v) ->
  (Lam + K / 2 * rho) * (K / (2 * sqrt mu) * rho) + K / 2 * rho <= sqrt mu -> K / (2 * sqrt mu) * rho <= 1 -> solves n m solver ->
  forall opt step reset scale, solver_works n m e Jac solver xs rho -> let pg := gn n m e Jac solver in let pl := n_line_search (vec R) n m e Jac solver step reset scale in
  forall x g, dist n x xs <= rho -> n_optimize (vec R) vadd n m e pg opt x = Some g ->
  exists l, n_optimize (vec R) vadd n m e pl opt x = Some l /\ n_x _ pl l = n_x _ pg g /\ n_it _ pl l = n_it _ pg g /\ n_fail _ pl l = n_fail _ pg g /\ n_status _ pl opt l = n_status _ pg opt g.
Proof. exact ls_like_gn. Qed.
Print Assumptions C87_line_search.
(** met by the error x + x^2/8 around 0 with rho = 1, Lam = 5/4 (that the Gauss-Newton run ends is C87_converges) *)
Example C87_line_search_case : regular 1 1 he hJ zero 1 (1 / 4) (9 / 16) /\ norm 1 (he zero) = 0 /\ rate (1 / 4) (9 / 16) (norm 1 (he zero)) 1 < 1 /\
  (forall x v, dist 1 x zero <= 1 -> norm 1 (mvmul 1 (hJ x) v) <= 5 / 4 * norm 1 v) /\ (5 / 4 + 1 / 4 / 2 * 1) * (1 / 4 / (2 * sqrt (9 / 16)) * 1) + 1 / 4 / 2 * 1 <= sqrt (9 / 16) /\
  solves 1 1 sv /\ solver_works 1 1 he hJ sv zero 1 /\ dist 1 (fun _ => 1) zero <= 1.
Proof. exact h_case. Qed.

(** from a bad first guess the run need not converge: with the error x^3 - 2 x + 2 + x^2 (x - 1)^2 / 18, which vanishes at -2 with a regular Jacobian, the run from 0 alternates between 0 and 1 until
    the limit of the iterations, whatever that is *)
Theorem C87_bad_guess_refuted : (forall x, derivable_pt_lim cyc x (dcyc x)) /\ cyc (-2) = 0 /\ dcyc (-2) <> 0 /\ solves 1 1 sv /\
  let po := gn 1 1 ce cJ_ sv in forall opt, o_dx opt < 1 -> o_dJ opt < 3 -> (0 <= o_max opt)%Z ->
  exists l, n_optimize (vec R) vadd 1 1 ce po opt zero = Some l /\ n_status _ po opt l = Optimizer2_Model.MAX_ITERATIONS /\ (n_x _ po l O = 0 \/ n_x _ po l O = 1).
Proof. exact cycles. Qed.
Print Assumptions C87_bad_guess_refuted.
