(** * Matrices in the BFGS property *)
From Coq Require Import Reals.
From Coq Require Import List.
From Verif Require Import Lib_Ring Lib_Real BFGS_Model.
Import ListNotations.
Open Scope R_scope.

Definition symmetric (n : nat) (B : mat R) : Prop := forall i j, (i < n)%nat -> (j < n)%nat -> B i j = B j i.
Definition nonzero (n : nat) (x : vec R) : Prop := exists i, (i < n)%nat /\ x i <> 0.
Definition positive_definite (n : nat) (B : mat R) : Prop := forall x, nonzero n x -> 0 < vdot n x (mvmul n B x).

(* Consecutive iterations of a run are linked: each starts where the one before ended, and its matrix maps the change of the gradient over the
   step before to that step. [gradOf] is the gradient of the cost function. *)
Fixpoint secant_chain {W : Type} (n : nat) (gradOf : W -> vec R) (its : list (iter W)) : Prop :=
  match its with
  | a :: ((b :: _) as t) => i_from b = i_to a /\
      veq n (mvmul n (i_B b) (vsub (gradOf (i_to a)) (gradOf (i_from a)))) (vscale (i_alpha a) (i_p a)) /\ secant_chain n gradOf t
  | _ => True
  end.
