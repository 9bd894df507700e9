(** * optimizeDogLeg: vocabulary of the statement C65 (independent of the loop's code) *)
From Coq Require Import ZArith Reals List Bool.
From Verif Require Import Lib_Ring Lib_Real Policy_Model Policy_Spec DogLeg1_Model.
Import ListNotations.
Open Scope R_scope.

(** the environment respects the contract of design variables, error terms and solvers: [val] is the value of the design variables, [saved] the
    value they go back to, [cost] and [lin] the cost and the linear system that belong to a value, [sol v g] says that g solves the system of v *)
Record faithfulD {W V} (E : denv W) (val saved : W -> V) (cost : V -> ext) (lin : V -> mat R * vec R) (sol : V -> vec R -> Prop) : Prop := mkFaithfulD {
  h_eval : forall w, fst (y_eval E w) = cost (val w) /\ val (snd (y_eval E w)) = val w /\ saved (snd (y_eval E w)) = saved w;
  h_build : forall w, fst (y_build E w) = lin (val w) /\ val (snd (y_build E w)) = val w /\ saved (snd (y_build E w)) = saved w;
  h_solve : forall w, (fst (fst (y_solve E w)) = true -> sol (val w) (snd (fst (y_solve E w)))) /\ val (snd (y_solve E w)) = val w /\ saved (snd (y_solve E w)) = saved w;
  h_fallback : forall w, (fst (fst (y_fallback E w)) = true -> sol (val w) (snd (fst (y_fallback E w)))) /\ val (snd (y_fallback E w)) = val w /\ saved (snd (y_fallback E w)) = saved w;
  h_robust : forall w, val (y_robust E w) = val w /\ saved (y_robust E w) = saved w;
  h_apply : forall w dx, saved (snd (y_apply E w dx)) = val w;
  h_revert : forall w, val (y_revert E w) = saved w }.

(** costs are not negative; they may be infinite or NaN *)
Definition nonneg (c : ext) : Prop := match c with Fin r => 0 <= r | NInf => False | _ => True end.

(** [u] is reached from [v] by applying the step [dx] *)
Definition movesD {W V} (E : denv W) (val : W -> V) (dx : vec R) (v u : V) : Prop := exists w, val w = v /\ val (snd (y_apply E w dx)) = u.

(** the steepest descent step of the code *)
Definition sd_of (n : nat) (sys : mat R * vec R) : vec R :=
  vscale (vdot n (snd sys) (snd sys) / vdot n (mvmul n (fst sys) (snd sys)) (mvmul n (fst sys) (snd sys))) (snd sys).

(** the trials, oldest first, starting at the value v: each is computed from the system of the present value; it is kept exactly when it lowers
    the cost, otherwise the value is restored; v' is the value at the end *)
Fixpoint walkD {V} (n : nat) (moves : vec R -> V -> V -> Prop) (cost : V -> ext) (lin : V -> mat R * vec R) (sol : V -> vec R -> Prop) (v : V) (ts : list trial) (v' : V) : Prop :=
  match ts with
  | [] => v' = v
  | t :: r =>
      cost v = Fin (t_J t) /\ t_sys t = lin v /\ t_sd t = sd_of n (lin v) /\ (forall g, t_gn t = Some g -> sol v g \/ g = t_sd t) /\
      exists u, moves (t_dx t) v u /\ cost u = t_cost t /\
        if t_kept t then (exists c, t_cost t = Fin c /\ c < t_J t) /\ walkD n moves cost lin sol u r v'
        else (forall c, t_cost t = Fin c -> t_J t <= c) /\ walkD n moves cost lin sol v r v'
  end.

(** the step of a trial lies on the dog-leg path of its steepest descent and Gauss-Newton steps, inside the trust region *)
Definition step_ok (n : nat) (t : trial) : Prop :=
  norm n (t_dx t) <= t_delta t /\ 0 <= t_L0 t /\
  (t_gn t = None -> exists a, 0 <= a <= 1 /\ veq n (t_dx t) (vscale a (t_sd t))) /\
  (forall g, t_gn t = Some g -> dogleg n (t_sd t) g (t_dx t)).

(** the radius after a trial: larger after a good step, smaller after a bad one; a result of 0 means that it is chosen anew *)
Definition radius_after (n : nat) (t : trial) (d : R) : Prop :=
  let rho := ratio (t_J t) (t_cost t) (t_L0 t) in
  (t_kept t = false -> d = t_delta t / 2 \/ (t_type t = TGN /\ d = norm n (t_dx t) / 2)) /\
  (t_kept t = true -> xlt rho (1 / 4) = true -> d = t_delta t / 2) /\
  (xgt rho (3 / 4) = true -> d = Rmax (t_delta t) (3 * norm n (t_dx t))) /\
  (xlt rho (1 / 4) = false -> xgt rho (3 / 4) = false -> d = t_delta t).
Fixpoint radii (n : nat) (ts : list trial) : Prop :=
  match ts with
  | t :: (t' :: _) as r => (exists d, radius_after n t d /\ (d <> 0 -> t_delta t' = d)) /\ radii n r
  | _ => True
  end.
