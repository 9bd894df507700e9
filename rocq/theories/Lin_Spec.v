(** * Linear least-squares problems: vocabulary *)
From Coq Require Import Reals List Bool ZArith.
From Verif Require Import Lib_Ring Lib_Real Policy_Model Lin_Model.
From Verif Require Optimizer2_Model.
Open Scope R_scope.

(* x has the lowest cost of all *)
Definition minimal (n m : nat) (A : mat R) (b x : vec R) : Prop := forall z, cost n m A b x <= cost n m A b z.
(* the columns of A are independent: A v is never shorter than sqrt(mu) v *)
Definition margin (n m : nat) (A : mat R) (mu : R) : Prop := 0 < mu /\ forall v, mu * vdot n v v <= vdot m (mvmul n A v) (mvmul n A v).
(* the linear solver solves (A^T A + lambda^2 I) y = r whenever this matrix is positive definite *)
Definition solver_ok (n m : nat) (A : mat R) (solver : R -> vec R -> option (vec R)) : Prop :=
  forall lam r, exists y, solver lam r = Some y /\ forall p, (p < n)%nat -> mvmul n (mmul m (mtr A) A) y p + lam * lam * y p = r p.
(* the limits of the options *)
Definition opt_ok (o : ropt) : Prop := 0 <= o_dx o /\ 0 <= o_dJ o /\ (1 <= o_max o)%Z.
(* the largest damping a run can reach, and the factor by which every step then lowers the distance to the lowest cost *)
Definition damping (P : lmparams) : R := Rmax (lambdaInit P) (beta P).
Definition rate (L mu : R) : R := (L * L / (mu + L * L)) ^ 2.
(* the run from x ends, at the lowest cost, without failures, after one or two iterations; it says so if the limit of iterations allows it *)
Definition solved_exactly (n m : nat) (A : mat R) (b : vec R) (opt : ropt) (po : policy) (x : vec R) : Prop :=
  exists l, lin_optimize n m A b po opt x = Some l /\ minimal n m A b (l_x po l) /\ l_pJ po l = cost n m A b (l_x po l) /\ (1 <= l_it po l <= 2)%Z /\ l_fail po l = 0%Z /\
    ((l_it po l < o_max opt)%Z -> lin_status po opt l = Optimizer2_Model.DX \/ lin_status po opt l = Optimizer2_Model.DOBJECTIVE).
(* the run from x ends, without failures, after one iteration or more; every iteration has multiplied the distance to the lowest cost by rate L mu or less; a run that stops before the limit of
   iterations reports why, and what it reports bounds the distance to the lowest cost *)
Definition solved_nearly (n m : nat) (A : mat R) (b : vec R) (mu : R) (opt : ropt) (po : policy) (L : R) (xs x : vec R) : Prop :=
  exists l, lin_optimize n m A b po opt x = Some l /\ l_pJ po l = cost n m A b (l_x po l) /\ l_fail po l = 0%Z /\ (1 <= l_it po l <= o_max opt)%Z /\
    let excess := cost n m A b (l_x po l) - cost n m A b xs in
    excess <= rate L mu ^ Z.to_nat (l_it po l) * (cost n m A b x - cost n m A b xs) /\
    mu * vdot n (vsub (l_x po l) xs) (vsub (l_x po l) xs) <= excess /\
    ((l_it po l < o_max opt)%Z ->
      (lin_status po opt l = Optimizer2_Model.DX /\ excess <= L ^ 4 * INR n * (o_dx opt) ^ 2 / mu) \/
      (lin_status po opt l = Optimizer2_Model.DOBJECTIVE /\ excess <= rate L mu / (1 - rate L mu) * o_dJ opt)).
