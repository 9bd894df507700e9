(** * What a step of the linear solvers has to achieve: the smallest damped linearised cost, and descent of the real cost *)
From Coq Require Import Arith Lia List ZArith NArith Bool Reals.
From Verif Require Import Lib_Ring Lib_Real Lib_Res SBM_Model SBM_Spec LinSolve_Model LinSolve_Spec.
Import ListNotations.
Local Open Scope R_scope.

(* the linearised change of component k of an error term for the step y; the part of design variable b is multiplied by its scaling s b, as applyStateUpdate does *)
Definition lin_change (l : list nat) (s : nat -> R) (t : lterm R) (y : vec R) (k : nat) : R :=
  lsum (lt_jac t) (fun e => ksum (bsize l (fst e)) (fun i => snd e k i * (s (fst e) * y (base l (fst e) + i)%nat))).
(* u^T invR v with the inverse covariance S S^T, times the weight *)
Definition wprod (t : lterm R) (u v : vec R) : R :=
  (lt_sw t * lt_sw t) * ksum (lt_dim t) (fun k => ksum (lt_dim t) (fun k' => u k * mmul (lt_dim t) (lt_S t) (mtr (lt_S t)) k k' * v k')).
(* the linearised cost plus |diag(c) y|^2 *)
Definition damped_cost (l : list nat) (s : nat -> R) (ts : list (lterm R)) (c y : vec R) : R :=
  lsum ts (fun t => wprod t (fun k => lt_err t k + lin_change l s t y k) (fun k => lt_err t k + lin_change l s t y k)) + ksum (total l) (fun p => (c p * y p) * (c p * y p)).
(* the gradient of half the cost vanishes: no step changes the cost to first order *)
Definition stationary (l : list nat) (s : nat -> R) (ts : list (lterm R)) : Prop := forall y, lsum ts (fun t => wprod t (lt_err t) (lin_change l s t y)) = 0.
(* the real cost along a step: the error of every term is a function E of the step length h with the linearised change as its derivative,
   the terms go through loss functions rho whose slope at the current squared error is the weight *)
Definition squared (t : lterm R) (u : vec R) : R := ksum (lt_dim t) (fun k => ksum (lt_dim t) (fun k' => u k * mmul (lt_dim t) (lt_S t) (mtr (lt_S t)) k k' * u k')).
Record along := mkAlong { al_E : R -> vec R; al_rho : R -> R }.
Definition real_cost (ts : list (lterm R * along)) (h : R) : R := lsum ts (fun ta => al_rho (snd ta) (squared (fst ta) (al_E (snd ta) h))).
Definition along_ok (l : list nat) (s : nat -> R) (x : vec R) (ta : lterm R * along) : Prop :=
  (forall k, (k < lt_dim (fst ta))%nat -> al_E (snd ta) 0 k = lt_err (fst ta) k /\ derivable_pt_lim (fun h => al_E (snd ta) h k) 0 (lin_change l s (fst ta) x k)) /\
  derivable_pt_lim (al_rho (snd ta)) (squared (fst ta) (al_E (snd ta) 0)) (lt_sw (fst ta) * lt_sw (fst ta)).
(* what a step is good for *)
Definition best (l : list nat) (s : nat -> R) (ts : list (lterm R)) (c x : vec R) : Prop :=
  (* no step has a smaller damped linearised cost; with damping everywhere no other step has the same *)
  (forall y, damped_cost l s ts c x <= damped_cost l s ts c y) /\
  ((forall p, (p < total l)%nat -> c p <> 0) -> forall y, damped_cost l s ts c y <= damped_cost l s ts c x -> forall p, (p < total l)%nat -> y p = x p) /\
  (* unless the cost is stationary the linearised cost gets smaller, and so does the real cost for all short steps in this direction *)
  (~ stationary l s ts ->
     damped_cost l s ts c x < damped_cost l s ts c (fun _ => 0) /\
     forall tas, map fst tas = ts -> Forall (along_ok l s x) tas -> exists delta, 0 < delta /\ forall h, 0 < h < delta -> real_cost tas h < real_cost tas 0).
