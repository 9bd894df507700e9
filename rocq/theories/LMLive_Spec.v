(** * Levenberg-Marquardt: rejected steps in a row, and the gain ratio *)
From Coq Require Import Arith Lia List ZArith NArith Bool Reals.
From Verif Require Import Lib_Ring Lib_Real Lib_Res CCM_Model SBM_Model SBM_Spec LinSolve_Model LinSolve_Spec Gain_Spec Policy_Model Policy_Spec.
Import ListNotations.
Local Open Scope R_scope.

Definition no_step : vec R := fun _ => 0.
(* the first n components of y are at most r *)
Definition within (n : nat) (r : R) (y : vec R) : Prop := forall p, (p < n)%nat -> Rabs (y p) <= r.
(* L is the derivative of f at the zero step *)
Definition derivative_is (n : nat) (f L : vec R -> R) : Prop :=
  forall eps, 0 < eps -> exists delta, 0 < delta /\ forall r y, 0 <= r <= delta -> within n r y -> Rabs (f y - f no_step - L y) <= eps * r.
(* the real cost as a function of the step: the error of every term is a function E of the step, which goes through a loss function rho *)
Record term_of_step := mkTos { ts_E : vec R -> vec R; ts_rho : R -> R }.
Definition step_cost (tas : list (lterm R * term_of_step)) (y : vec R) : R := lsum tas (fun ta => ts_rho (snd ta) (squared (fst ta) (ts_E (snd ta) y))).
(* the error and the Jacobians that the linear system is built from are those of E, the weight is the slope of the loss function *)
Definition linearises (l : list nat) (s : nat -> R) (ta : lterm R * term_of_step) : Prop :=
  (forall k, (k < lt_dim (fst ta))%nat -> ts_E (snd ta) no_step k = lt_err (fst ta) k /\ derivative_is (total l) (fun y => ts_E (snd ta) y k) (fun y => lin_change l s (fst ta) y k)) /\
  derivable_pt_lim (ts_rho (snd ta)) (squared (fst ta) (lt_err (fst ta))) (lt_sw (fst ta) * lt_sw (fst ta)).

(** ** steps that were rejected one after the other
    One call of LevenbergMarquardtTrustRegionPolicy::solveSystem sets the conditioner to lambda and lets the solver solve; [attempt] is what the solver does:
    the state of the solver, lambda, the state afterwards and the step. The system is the same for all attempts, see C24_failure. *)
Section Run.
  Variables (n : nat) (P : lmparams) (St : Type) (attempt : St -> R -> St -> vec R -> Prop) (F : vec R -> R) (fresh : St).
  (* [row k s dx S]: after a system was built and solved k steps were taken back because the cost had not fallen; now the step dx is tried *)
  Inductive row : nat -> lm -> vec R -> St -> Prop :=
  | row_first : forall s dx l S, lm_reach n P s dx -> bfirst (lm_base s) = false -> lambda s = Some l -> attempt fresh l S dx -> row 0 s dx S
  | row_next : forall k s dx S c dx' s' l S', row k s dx S -> F no_step <= F dx -> cpf c = true -> lm_solve n P s dx c = (true, dx', s') -> lambda s' = Some l -> attempt S l S' dx' ->
      row (Datatypes.S k) s' dx' S'.
End Run.
(* the attempts of the three solvers *)
Definition block_attempt (bsolve : sbm R -> vec R -> option (vec R)) (b : bc R) (l : R) (b' : bc R) (dx : vec R) : Prop := bc_solve bsolve (mkBc (bc_H b) (bc_rhs b) (fun _ => l) true) = Ok (b', Some dx).
Definition sparse_attempt (csolve : ccm R -> vec R -> option (vec R)) (n : nat) (x : sc R) (l : R) (x' : sc R) (dx : vec R) : Prop :=
  sc_solve csolve (mkSc (sc_J x) (sc_e x) (sc_rhs x) (repeat l n) true) = Ok (x', Some dx).
Definition dense_attempt (hqr : nat -> nat -> mat R -> vec R -> vec R) (garbage : nat -> nat -> R) (x : dq R) (l : R) (x' : dq R) (dx : vec R) : Prop :=
  dq_solve hqr garbage (mkDq (dq_J x) (dq_rows x) (dq_cols x) (dq_e x) (dq_rhs x) (fun _ => l) (Some true)) = Ok (x', dx).
(* fewer than K steps are taken back in a row, whatever happened before *)
Definition rejections_end (n : nat) (P : lmparams) (St : Type) (attempt : St -> R -> St -> vec R -> Prop) (F : vec R -> R) (fresh : St) : Prop :=
  exists K, forall k s dx S, row n P St attempt F fresh k s dx S -> F no_step <= F dx -> (k < K)%nat.

(** ** the gain ratio *)
(* the decrease of the cost that the linearised error terms predict *)
Definition predicted (l : list nat) (s : nat -> R) (ts : list (lterm R)) (x : vec R) : R := damped_cost l s ts (fun _ => 0) no_step - damped_cost l s ts (fun _ => 0) x.
(* what remains of "the gain ratio is the decrease of the cost divided by the predicted decrease": it is for lambda = 1, and its sign is always right *)
Definition gain_ok (l : list nat) (s : nat -> R) (ts : list (lterm R)) (lam dJ : R) (x : vec R) (rho : ext) : Prop :=
  rho = xdiv dJ (predicted l s ts x + (lam - lam * lam) * vdot (total l) x x) /\
  (lam = 1 -> rho = xdiv dJ (predicted l s ts x)) /\
  (0 < lam -> ~ stationary l s ts -> 0 < predicted l s ts x /\ exists r, rho = Fin r /\ (0 < r <-> 0 < dJ)).
