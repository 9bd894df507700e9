(** * What a configuration has to do, in its own words (C83) *)
From Coq Require Import String Ascii ZArith Reals List Bool.
From Verif Require Import Lib_Res Conf_Model.
Import ListNotations.
Local Open Scope string_scope.
Local Open Scope R_scope.

(** the tree says [x] for the key [k]: the value stored there, or the default [d] when the key is absent *)
Definition says {A} (cv : entry -> option A) (t : tree) (k : string) (d x : A) : Prop :=
  (t k = None /\ x = d) \/ exists e, t k = Some e /\ cv e = Some x.
(** a count: the integer of the tree as an unsigned 64-bit number *)
Definition says_count (t : tree) (k : string) (d n : Z) : Prop :=
  exists z, says as_int t k d z /\ n = (z mod 2 ^ 64)%Z.
(** a count read as a double: its integer part, towards zero *)
Definition says_real_count (t : tree) (k : string) (d : R) (n : Z) : Prop :=
  exists x, says as_double t k d x /\ -1 < x < IZR (2 ^ 64) /\ (0 <= n)%Z /\ (x < 0 -> n = 0%Z) /\ (0 <= x -> IZR n <= x < IZR n + 1).

(** ** the tables of keys and defaults *)
Definition base_reads (t : tree) (b : base) : Prop :=
  says as_double t "convergenceGradientNorm" (1/1000) (gradNorm b) /\
  says as_double t "convergenceDeltaX" 0 (deltaX b) /\
  says as_double t "convergenceDeltaError" 0 (deltaError b) /\
  says as_int t "maxIterations" 100%Z (maxIt b) /\
  says_count t "numThreadsJacobian" 4 (nJac b) /\
  says_count t "numThreadsError" 1 (nErr b).
Definition rprop_reads (t : tree) (o : rprop) : Prop :=
  base_reads t (r_base o) /\
  says as_double t "etaMinus" (1/2) (etaMinus o) /\
  says as_double t "etaPlus" (12/10) (etaPlus o) /\
  says as_double t "initialDelta" (1/10) (delta0 o) /\
  says as_double t "minDelta" (/ 10 ^ 20) (deltaMin o) /\
  says as_double t "maxDelta" 1 (deltaMax o) /\
  r_dense o = true /\ r_reg o = None /\ r_method o = RpropPlus.
Definition ls_reads (t : tree) (o : ls) : Prop :=
  says as_double t "linesearch/c1WolfeCondition" (/ 10 ^ 4) (c1 o) /\
  says as_double t "linesearch/c2WolfeCondition" (9/10) (c2 o) /\
  says as_double t "linesearch/maxStepLength" 50 (maxStep o) /\
  says as_double t "linesearch/minStepLength" (/ 10 ^ 8) (minStep o) /\
  says as_double t "linesearch/xtol" (/ 10 ^ 14) (xtol o) /\
  says as_double t "linesearch/initialStepLength" 1 (step0 o) /\
  says_count t "linesearch/nMaxIterWolfe1" 30 (nWolfe1 o) /\
  says_count t "linesearch/nMaxIterWolfe2" 10 (nWolfe2 o) /\
  says_count t "linesearch/nMaxIterZoom" 10 (nZoom o).
Definition bfgs_reads (t : tree) (o : bfgs) : Prop :=
  base_reads t (b_base o) /\ ls_reads t (b_ls o) /\ says as_bool t "useDenseJacobianContainer" true (b_dense o) /\ b_reg o = None.
Definition hmc_reads (t : tree) (o : hmc) : Prop :=
  says as_double t "initialLeapFrogStepSize" (1/10) (h_step0 o) /\
  says as_double t "minLeapFrogStepSize" (1/1000) (h_min o) /\
  says as_double t "maxLeapFrogStepSize" (1/2) (h_max o) /\
  says as_double t "incFactorLeapFrogStepSize" (102/100) (h_inc o) /\
  says as_double t "decFactorLeapFrogStepSize" (98/100) (h_dec o) /\
  says as_double t "targetAcceptanceRate" (9/10) (h_rate o) /\
  h_std o = 1 /\
  says_count t "nLeapFrogSteps" 20 (h_steps o) /\
  says_real_count t "nThreads" 2 (h_threads o).
Definition mh_reads (t : tree) (o : mh) : Prop :=
  says as_double t "transitionKernelSigma" (1/10) (m_sigma o) /\ says_real_count t "nThreadsEvaluateLogDensity" 1 (m_threads o).
Definition lm_reads (t : tree) (o : lmp) : Prop :=
  says as_double t "lambdaInit" (1/1000) (lambda0 o) /\ says as_double t "gammaInit" 3 (gamma0 o) /\ says as_double t "betaInit" 2 (beta0 o) /\
  says as_int t "pInit" 3%Z (p0 o) /\ says as_double t "muInit" 2 (mu0 o).
(** a key with an old name: whichever of the two names is used *)
Definition says_either {A} (cv : entry -> option A) (t : tree) (old new : string) (d x : A) : Prop :=
  (t old = None /\ says cv t new d x) \/ (t new = None /\ says cv t old d x).
Definition opt2_reads (t : tree) (o : opt2) : Prop :=
  gradNorm (o_base o) = 1/1000 /\
  says_either as_double t "convergenceDeltaJ" "convergenceDeltaError" (1/1000) (deltaError (o_base o)) /\
  says as_double t "convergenceDeltaX" (1/1000) (deltaX (o_base o)) /\
  says as_int t "maxIterations" 20%Z (maxIt (o_base o)) /\
  says as_bool t "doSchurComplement" false (o_schur o) /\
  says as_bool t "verbose" false (o_verbose o) /\
  says as_int t "linearSolverMaximumFails" 0%Z (o_fails o) /\
  (exists z, says_either as_int t "nThreads" "numThreadsJacobian" 4%Z z /\ nJac (o_base o) = (z mod 2 ^ 64)%Z) /\
  says_count t "numThreadsError" 1 (nErr (o_base o)).

(** ** the ranges *)
Definition base_valid (b : base) : Prop :=
  0 <= gradNorm b /\ 0 <= deltaX b /\ 0 <= deltaError b /\ (0 < gradNorm b \/ 0 < deltaX b \/ 0 < deltaError b) /\ (-1 <= maxIt b)%Z.
Definition rprop_valid (o : rprop) : Prop :=
  base_valid (r_base o) /\ 0 < etaMinus o < etaPlus o /\ 0 < delta0 o /\ 0 < deltaMin o < deltaMax o.
Definition ls_valid (o : ls) : Prop :=
  0 <= c1 o <= c2 o /\ 0 <= maxStep o /\ 0 <= minStep o /\ 0 <= xtol o /\ 0 < step0 o /\ (0 < nWolfe1 o)%Z /\ (0 < nWolfe2 o)%Z /\ (0 < nZoom o)%Z.
Definition bfgs_valid (o : bfgs) : Prop := base_valid (b_base o) /\ ls_valid (b_ls o).
Definition hmc_valid (o : hmc) : Prop :=
  0 < h_min o <= h_step0 o /\ h_step0 o <= h_max o /\ 1 <= h_inc o /\ 0 < h_dec o <= 1 /\ 0 <= h_rate o <= 1.

(** a constructor from a tree returns the options the tree describes when they are in range, and throws otherwise *)
Definition reads_and_checks {O} (make : tree -> res O) (reads : tree -> O -> Prop) (valid : O -> Prop) : Prop :=
  forall t, match make t with
    | Ok o => reads t o /\ valid o
    | Throw => forall o, reads t o -> ~ valid o
    | UB => False
    end.

(** saving and loading: whatever object the archive is loaded into *)
Definition restores {O} (members : list (member O)) : Prop := forall o o0, load members (save members o) o0 = Ok o.

(** the solver and the policy in use are those of the options; without one in the options they are the sparse Cholesky solver and Levenberg-Marquardt;
    with the sparse QR solver, which cannot augment a diagonal, Levenberg-Marquardt is replaced by dog-leg *)
Definition in_step (s : opt2_obj) : Prop :=
  (forall p, o_solver (oo_opts s) = Some p -> oo_solver s = p) /\
  (o_solver (oo_opts s) = None -> oo_solver s = mkPart None "sparse_cholesky") /\
  (pt_name (oo_solver s) = "sparse_qr" -> pt_name (oo_policy s) <> "levenberg_marquardt") /\
  (forall p, o_policy (oo_opts s) = Some p -> oo_policy s = p \/ (pt_name (oo_solver s) = "sparse_qr" /\ pt_name p = "levenberg_marquardt" /\ oo_policy s = mkPart None "dog_leg")) /\
  (o_policy (oo_opts s) = None -> oo_policy s = mkPart None (if (pt_name (oo_solver s) =? "sparse_qr")%string then "dog_leg" else "levenberg_marquardt")).

(** what the last setter in a history says *)
Definition rprop_arg (p : rprop_op) : Prop := match p with RSet o => rprop_valid o | RSetBase b => base_valid b end.
Definition bfgs_arg (p : bfgs_op) : Prop := match p with BSet o => bfgs_valid o | BSetBase b => base_valid b end.
