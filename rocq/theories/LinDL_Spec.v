(** * Linear least-squares problems and the dog-leg policy: vocabulary *)
From Coq Require Import Reals List Bool ZArith.
From Verif Require Import Lib_Ring Lib_Real Policy_Model Lin_Model Lin_Spec LinDL_Model.
From Verif Require Optimizer2_Model.
Open Scope R_scope.

(* A v is never longer than sqrt(Lam) v *)
Definition reach (n m : nat) (A : mat R) (Lam : R) : Prop := forall v, vdot m (mvmul n A v) (mvmul n A v) <= Lam * vdot n v v.
(* the run from x ends, without failures and without NaNs, after one iteration or more; every iteration has multiplied the distance to the lowest cost by 1 - mu/(4 Lam) or less; a run that
   stops before the limit of iterations reports why, and what it reports bounds the distance to the lowest cost *)
Definition solved_by_dog_leg (n m : nat) (A : mat R) (b : vec R) (mu Lam : R) (opt : ropt) (solver : R -> vec R -> option (vec R)) (s0 : dl) (xs x : vec R) : Prop :=
  let po := dog_leg n m A b solver s0 in
  exists l, lin_optimize n m A b po opt x = Some l /\ l_pol po l <> None /\ l_pJ po l = cost n m A b (l_x po l) /\ l_fail po l = 0%Z /\ (1 <= l_it po l <= o_max opt)%Z /\
    let excess := cost n m A b (l_x po l) - cost n m A b xs in
    excess <= (1 - mu / (4 * Lam)) ^ Z.to_nat (l_it po l) * (cost n m A b x - cost n m A b xs) /\
    mu * vdot n (vsub (l_x po l) xs) (vsub (l_x po l) xs) <= excess /\
    ((l_it po l < o_max opt)%Z ->
      (lin_status po opt l = Optimizer2_Model.DX /\ excess <= 16 * Lam ^ 2 * INR n * (o_dx opt) ^ 2 / mu) \/
      (lin_status po opt l = Optimizer2_Model.DOBJECTIVE /\ excess <= (4 * Lam / mu - 1) * o_dJ opt)).
