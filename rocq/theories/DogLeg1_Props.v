(** * C65: Optimizer::optimizeDogLeg *)
From Coq Require Import ZArith Reals List Bool Lra.
From Verif Require Import Lib_Ring Lib_Real Policy_Model Policy_Spec DogLeg1_Model DogLeg1_Spec DogLeg1_Proofs DogLeg1_Proofs2.
Import ListNotations.
Open Scope R_scope.

(** C65. Every run that ends normally, for every environment that respects the contract of design variables, error terms and solvers, with costs that are not negative (they may be
    infinite or NaN at trial points): the trials form a walk in which each is computed from the system of the present state, kept exactly when it lowers the cost and undone
    otherwise; each step lies on the dog-leg path, inside the trust region; the radius follows the gain ratio; the design variables end in a state whose cost is least among
    all states tried, and that cost is reported; the run stops at the iteration limit or by a convergence criterion.
    Missing: rounding; runs that meet a NaN or an infinity where the code computes on with it (see C65_stationary_refuted). *)
Theorem C65_best_state_partial : forall W (E : denv W) o n nd V (val saved : W -> V) cost lin sol, faithfulD E val saved cost lin sol -> (forall v, nonneg (cost v)) ->
  forall fuel w r s, optimizeDogLeg E o n nd fuel w = Fine (r, s) ->
    walkD n (movesD E val) cost lin sol (val w) (rev (slog s)) (val (sw s)) /\ radii n (rev (slog s)) /\ Forall (step_ok n) (slog s) /\
    cost (val w) = Fin (r_JStart r) /\ cost (val (sw s)) = Fin (r_JFinal r) /\ r_JFinal r <= r_JStart r /\
    (forall t c, In t (slog s) -> t_cost t = Fin c -> r_JFinal r <= c) /\
    (val (sw s) = val w \/ exists t, In t (slog s) /\ t_kept t = true /\ t_cost t = Fin (r_JFinal r)) /\
    (0 <= r_it r <= Z.max 0 (o_max o))%Z /\ ((r_it r < o_max o)%Z -> r_dX r <= o_dX o \/ Rabs (r_dJ r) <= o_dJ o).
Proof. exact (fun W E o n nd V val saved cost lin sol F C => run_history E o n nd val saved cost lin sol F C). Qed.
Print Assumptions C65_best_state_partial.

(** C65. With a positive convergenceDeltaX the run ends, whatever the environment does. *)
Theorem C65_terminates_partial : forall W (E : denv W) o n nd, 0 < o_dX o -> forall w, exists F, forall fuel, (F <= fuel)%nat -> optimizeDogLeg E o n nd fuel w <> NoFuel.
Proof. exact (fun W E o n nd D => run_total E o n nd D). Qed.
Print Assumptions C65_terminates_partial.

(** C65. Without marginalised variables, with finite costs and gradients that the Hessian does not map to zero, it ends normally. *)
Theorem C65_completes_partial : forall W (E : denv W) o n, (forall w, exists c, fst (y_eval E w) = Fin c) ->
  (forall w, let sys := fst (y_build E w) in vdot n (mvmul n (fst sys) (snd sys)) (mvmul n (fst sys) (snd sys)) <> 0) ->
  forall w, 0 < o_dX o -> exists F, forall fuel, (F <= fuel)%nat -> exists r s, optimizeDogLeg E o n n fuel w = Fine (r, s).
Proof. exact (fun W E o n C G => run_fine E o n C G). Qed.
Print Assumptions C65_completes_partial.

(* one variable with cost x^2, steps proposed in one direction: trials are kept until the minimum, then undone *)
Example C65_ex : let E := toyE (fun x => x * x) (fun _ => -1) in let o := mkDopts (1 / 100) (1 / 100) 5 0 in
  faithfulD E fst snd (fun x => Fin (x * x)) (fun x => ((fun _ _ => 1), c1 (-1))) (fun x g => g = c1 (-1)) /\ (forall v, nonneg (Fin (v * v))) /\ 0 < o_dX o /\
  exists fuel r s, optimizeDogLeg E o 1 1 fuel (7 / 2, 0) = Fine (r, s).
Proof.
  split; [exact (toyE_faithful (fun x => x * x) (fun _ => -1))|]. split; [intros v; exact (Rle_0_sqr v)|]. split; [cbn; lra|].
  destruct (run_fine (toyE (fun x => x * x) (fun _ => -1)) (mkDopts (1 / 100) (1 / 100) 5 0) 1 (fun w => ex_intro _ _ eq_refl)
    (toy_grad (fun x => x * x) (fun _ => -1) ltac:(intros; lra)) (7 / 2, 0) ltac:(cbn; lra)) as (F & H). exists F. exact (H F (le_n F)).
Qed.

(** With a negative convergenceDeltaX (a way to switch the criterion off) the inner loop never ends at a local minimum. *)
Theorem C65_terminates_refuted : faithfulD minE fst snd (fun x => Fin (1 + x * x)) (fun x => ((fun _ _ => 1), c1 (-1))) (fun x g => g = c1 (-1)) /\ o_dX minO < 0 /\
  forall fuel, optimizeDogLeg minE minO 1 1 fuel (0, 0) = NoFuel.
Proof. exact (conj (toyE_faithful _ _) (conj minO_neg min_never)). Qed.
Print Assumptions C65_terminates_refuted.

(** When some variables are marginalised (nd < n) the steepest descent and Gauss-Newton steps have different sizes: every run is undefined. *)
Theorem C65_marginalised_refuted : forall W (E : denv W) o n nd w c, nd <> n -> (0 < o_max o)%Z -> fst (y_eval E w) = Fin c ->
  (forall w', let sys := fst (y_build E w') in vdot n (mvmul n (fst sys) (snd sys)) (mvmul n (fst sys) (snd sys)) <> 0) -> forall fuel, optimizeDogLeg E o n nd (S fuel) w = Undef.
Proof. exact marginalised_undef. Qed.
Print Assumptions C65_marginalised_refuted.

(** A start where the gradient is zero (the optimum) makes the code compute with NaN. *)
Theorem C65_stationary_refuted : forall W (E : denv W) o n nd w c, (0 < o_max o)%Z -> fst (y_eval E w) = Fin c -> (forall w', veq n (snd (fst (y_build E w'))) (fun _ => 0)) ->
  forall fuel, optimizeDogLeg E o n nd fuel w = NotNum.
Proof. exact stationary_nan. Qed.
Print Assumptions C65_stationary_refuted.
Example C65_refuted_ex : let E := toyE (fun x => x * x) (fun _ => 0) in (forall w', veq 1 (snd (fst (y_build E w'))) (fun _ => 0)) /\ fst (y_eval E (3, 0)) = Fin (3 * 3).
Proof. split; [intros w' i _; reflexivity|reflexivity]. Qed.

(** The steepest descent step is not the Cauchy point: the scale divides by |H r|^2 instead of r H r.  Here the minimiser along the gradient is 10, the code takes 100, and the
    quadratic model is worse there than without a step. *)
Theorem C65_cauchy_refuted : let H : mat R := fun _ _ => 1 / 10 in let r := c1 1 in let gain := fun h : vec R => 2 * vdot 1 r h - vdot 1 h (mvmul 1 H h) in
  (forall h, gain h <= gain (c1 10)) /\ gain (c1 10) = 10 /\ sd_of 1 (H, r) O = 100 /\ gain (sd_of 1 (H, r)) = -800.
Proof. exact not_cauchy. Qed.
Print Assumptions C65_cauchy_refuted.

(** The predicted decrease of a Gauss-Newton step is taken to be the whole cost: on a linear problem where the model is exact (both decreases are 1) the gain ratio is 1/100, and
    the trust region is halved after a perfect step. *)
Theorem C65_gain_refuted : exists r s t, optimizeDogLeg linE linO 1 1 1 (1, 0) = Fine (r, s) /\ slog s = [t] /\ t_kept t = true /\ t_J t = 100 /\ t_cost t = Fin 99 /\ t_L0 t = 100 /\
  2 * vdot 1 (snd (t_sys t)) (t_dx t) - vdot 1 (t_dx t) (mvmul 1 (fst (t_sys t)) (t_dx t)) = 1 /\ t_delta t = 1 /\ sdelta s = 1 / 2.
Proof. exact linear_ratio. Qed.
Print Assumptions C65_gain_refuted.

(** The failing default solver is never replaced by the robust one, although the code for it is there: whatever the replacement would do, the run is the same. *)
Theorem C65_robust_solver_refuted : forall W (E : denv W) o n nd f, (0 <= o_fails o)%Z -> forall fuel w, optimizeDogLeg (with_robust E f) o n nd fuel w = optimizeDogLeg E o n nd fuel w.
Proof. exact (fun W E o n nd f H => robust_run E o n nd f H). Qed.
Print Assumptions C65_robust_solver_refuted.
