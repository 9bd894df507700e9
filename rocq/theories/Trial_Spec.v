(** * The trial points of the line searches: vocabulary of C90 *)
From Coq Require Import Reals Bool.
From Verif Require Import Lib_Num LineSearch_Model.
Open Scope R_scope.

(* a polynomial of degree three, its first and second derivative *)
Definition cubic (k3 k2 k1 k0 x : R) : R := k3 * x ^ 3 + k2 * x ^ 2 + k1 * x + k0.
Definition cubic' (k3 k2 k1 x : R) : R := 3 * k3 * x ^ 2 + 2 * k2 * x + k1.
Definition cubic'' (k3 k2 x : R) : R := 6 * k3 * x + 2 * k2.
(* strictly between the two ends, in either order *)
Definition between (x a b : R) : Prop := a < x < b \/ b < x < a.
(* what dcstep may assume about the interval it is given and the trial step in it: the slope at the best step stx leads towards the trial; once a minimum is bracketed, the trial lies between the two ends
   and the other end is higher or slopes up away from stx *)
Definition bracket (v : dc R) : Prop :=
  dx v * (stp v - stx v) < 0 /\ (brackt v = true -> between (stp v) (stx v) (sty v) /\ (fx v < fy v \/ 0 < dy v * (sty v - stx v))).
(* the bounds leave room beyond the trial step *)
Definition room (v : dc R) (stpmin stpmax : R) : Prop := (stx v < stp v /\ stp v < stpmax) \/ (stp v < stx v /\ stpmin < stp v).

(* a parabola with its lowest value e at m, and its slope *)
Definition parabola (c m e x : R) : R := c / 2 * (x - m) ^ 2 + e.
Definition parabola' (c m x : R) : R := c * (x - m).

(* the two ends of the interval carry the values and the slopes of phi at them *)
Definition measured (phi phi' : R -> R) (v : dc R) : Prop := fx v = phi (stx v) /\ dx v = phi' (stx v) /\ fy v = phi (sty v) /\ dy v = phi' (sty v).
(* one call of the search with the value and the slope at its current step; n calls *)
Definition search_call (phi phi' : R -> R) (s : dcsrch R) : dcsrch R := snd (updateStepLength s (phi (stp (s_dc s))) (phi' (stp (s_dc s)))).
Fixpoint search (phi phi' : R -> R) (n : nat) (s : dcsrch R) : dcsrch R := match n with O => s | S n' => search_call phi phi' (search phi phi' n' s) end.
