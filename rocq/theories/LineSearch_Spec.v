(** * What a user expects of the line search *)
From Coq Require Import ZArith Reals List Bool.
From Verif Require Import Lib_Res Lib_Num LineSearch_Model.
Import ListNotations.

Section Spec.
  Context {N : Type} {A : Num N} {W G : Type}.
  Variables (errorOf : W -> N) (gradOf : W -> G) (slope : G -> N) (moveBy : W -> N -> W).

  (* The state describes its own world: error, gradient and slope are those of the design variables. *)
  Definition current (l : lstate N W G) : Prop :=
    l_eOut l = false /\ l_dOut l = false /\ l_error l = errorOf (l_world l) /\
    l_grad l = gradOf (l_world l) /\ l_derror l = slope (l_grad l).

  (* a state in which a search may be started (after initialize and setSearchDirection) *)
  Definition ready (l : lstate N W G) : Prop := current l /\ l_step l = nlit 0 1.

  (* [w] is reached from [w0] by moving along the search direction, the last step length being [s]: each trial moves by the difference
     between the new and the old step length *)
  Inductive reached (w0 : W) : N -> W -> Prop :=
  | reach_start : reached w0 (nlit 0 1) w0
  | reach_move : forall s w s', reached w0 s w -> reached w0 s' (moveBy w (nsub s' s))
  | reach_same : forall s w s', reached w0 s w -> neq (nsub s' s) (nlit 0 1) = true -> reached w0 s' w.
End Spec.

(* Moving along a fixed direction in exact arithmetic *)
Definition additive {W : Type} (moveBy : W -> R -> W) : Prop :=
  (forall w, moveBy w 0%R = w) /\ (forall w a b, moveBy (moveBy w a) b = moveBy w (a + b)%R).

(* The strong Wolfe conditions for the step [s] from a point with error [e0] and slope [d0] to a point with error [e] and slope [d] *)
Definition sufficient_decrease (c1 e0 d0 s e : R) : Prop := (e <= e0 + c1 * s * d0)%R.
Definition strong_curvature (c2 d0 d : R) : Prop := (Rabs d <= - c2 * d0)%R.

(* A run of Dcsrch on arbitrary evaluation results: each trial step is answered by an error and a derivative. [hist] lists the evaluated
   points (step, error), the latest first; the starting point is step 0. *)
Inductive running {N} {A : Num N} (s0 : dcsrch N) (e0 : N) : list (N * N) -> dcsrch N -> Prop :=
| run_start : forall d, running s0 e0 [(nlit 0 1, e0)] (snd (updateStepLength s0 e0 d))
| run_step : forall h s e d s', running s0 e0 h s -> s_status s = RUNNING ->
    s' = snd (updateStepLength s e d) -> running s0 e0 ((stp (s_dc s), e) :: h) s'.
