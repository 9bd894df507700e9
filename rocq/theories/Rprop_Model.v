(** * OptimizerRprop: aslam_backend/src/OptimizerRprop.cpp in double precision.
    The cost function is a type of worlds with arbitrary gradient (regularizer included), error and state update. Not modelled: callbacks, timing,
    the status counters; the three convergence tests (L145, L241, L250) are arbitrary decisions. *)
From Coq Require Import ZArith List Bool.
From Verif Require Import Lib_Float.
Import ListNotations.

(* OptimizerRprop.hpp L23 *)
Inductive rmethod := RPROP_PLUS | RPROP_MINUS | IRPROP_MINUS | IRPROP_PLUS.

(* OptimizerRprop.hpp L27-34 *)
Record roptions := mkRopt { etaMinus : b64; etaPlus : b64; initialDelta : b64; minDelta : b64; maxDelta : b64; method : rmethod }.

(* OptimizerRprop.cpp L29-37 *)
Definition check_rprop (o : roptions) : bool :=
  flt f0 (etaMinus o) && flt (etaMinus o) (etaPlus o) && flt f0 (initialDelta o) && flt f0 (minDelta o) && flt (minDelta o) (maxDelta o).

(* OptimizerRprop.hpp L95-97 *)
Definition sign (v : b64) : Z := ((if flt f0 v then 1 else 0) - (if flt v f0 then 1 else 0))%Z.
(* OptimizerRprop.cpp L181, L196, L212, L232: -sign(gradient(d))*_delta(d) *)
Definition against (g delta : b64) : b64 := fmul (fz (- sign g)) delta.

(* std::min, std::max *)
Definition dmin (a b : b64) : b64 := if flt b a then b else a.
(* same code: std::min, std::max *)
Definition dmax (a b : b64) : b64 := if flt a b then b else a.

(* OptimizerRprop.hpp L102-108: one coordinate of _delta, _dx, _prev_gradient *)
Record rcoord := mkRc { r_delta : b64; r_dx : b64; r_prev : b64 }.

(* OptimizerRprop.cpp L159-162 *)
Definition switchNo (c : rcoord) (g : b64) : bool := flt f0 (fmul (r_prev c) g).
(* same code: OptimizerRprop.cpp L159-162 *)
Definition switchYes (c : rcoord) (g : b64) : bool := flt (fmul (r_prev c) g) f0.

(* OptimizerRprop.cpp L163-237: the body of the loop over the coordinates; [inc] is errorIncreased *)
Definition rprop_coord (o : roptions) (inc : bool) (c : rcoord) (g : b64) : rcoord :=
  let yes := switchYes c g in
  let delta := if switchNo c g then dmin (fmul (r_delta c) (etaPlus o)) (maxDelta o)
               else if yes then dmax (fmul (r_delta c) (etaMinus o)) (minDelta o) else r_delta c in
  match method o with
  | RPROP_PLUS => if yes then mkRc delta (fopp (r_dx c)) f0 else mkRc delta (against g delta) g
  | RPROP_MINUS => mkRc delta (against g delta) g
  | IRPROP_MINUS => if yes then mkRc delta f0 f0 else mkRc delta (against g delta) g
  | IRPROP_PLUS => if yes then mkRc delta (if inc then fopp (r_dx c) else f0) f0 else mkRc delta (against g delta) g
  end.

(* numeric_limits<double>::max() *)
(* as at OptimizerRprop.hpp L111 *)
Definition dblmax : b64 := fl (2 ^ 53 - 1) 971.

Section Rprop.
  Context {W : Type}.
  Variables (gradientOf : W -> nat -> b64) (errorOf : W -> b64) (apply : W -> (nat -> b64) -> W).
  Variables (stop_gradient : (nat -> b64) -> bool) (stop_dx : (nat -> b64) -> bool) (stop_error : b64 -> b64 -> bool).
  Variable o : roptions.

  (* OptimizerRprop.hpp L102-111 *)
  Record rstate := mkRs { coords : nat -> rcoord; prev_error : b64; rworld : W }.

  (* OptimizerRprop.cpp L96-101 *)
  Definition rprop_reset (w : W) : rstate := mkRs (fun _ => mkRc (initialDelta o) f0 f0) dblmax w.

  (* OptimizerRprop.cpp L150-156, L158-239: the adaptation and the update of the state *)
  Definition rprop_step (s : rstate) : rstate :=
    let plus := match method o with IRPROP_PLUS => true | _ => false end in
    let e := errorOf (rworld s) in
    let inc := plus && flt f0 (fsub e (prev_error s)) in
    let g := gradientOf (rworld s) in
    let cs := fun d => rprop_coord o inc (coords s d) (g d) in
    mkRs cs (if plus then e else prev_error s) (apply (rworld s) (fun d => r_dx (cs d))).

  (* OptimizerRprop.cpp L114-263: at most m iterations; the states before and after each one that updated the state *)
  Fixpoint rprop_loop (m : nat) (s : rstate) : list (rstate * rstate) :=
    match m with
    | O => []
    | S m' =>
      if stop_gradient (gradientOf (rworld s)) then [] else
      let s1 := rprop_step s in
      if stop_dx (fun d => r_dx (coords s1 d)) then [(s, s1)] else
      if match method o with IRPROP_PLUS => stop_error (errorOf (rworld s1)) (prev_error s1) | _ => false end then [(s, s1)] else
      (s, s1) :: rprop_loop m' s1
    end.
End Rprop.
Arguments rstate W : clear implicits.
