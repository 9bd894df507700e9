(** * C90: the trial points of the line searches *)
From Coq Require Import Reals Lra Bool.
From Verif Require Import Lib_Num Lib_Res LineSearch_Model.
From Verif Require Import Trial_Spec Trial_Proofs Trial_Proofs2 Trial_Proofs3 Trial_Toy.
Open Scope R_scope.

(* quadMin: of the parabola through two values and a slope it returns the lowest point *)
Theorem C90_quadMin : forall k2 k1 k0 a b, a <> b -> 0 < k2 ->
  let q x := cubic 0 k2 k1 k0 x in
  forall x, q (quadMin a (q a) (cubic' 0 k2 k1 a) b (q b)) <= q x.
Proof. exact quadMin_right. Qed.
Print Assumptions C90_quadMin.
Example C90_quadMin_case : 0 <> 2 /\ 0 < 1.
Proof. lra. Qed.

(* cubicMin: of the cubic through three values and a slope it returns the point where the slope vanishes and the curvature is not negative *)
Theorem C90_cubicMin : forall k3 k2 k1 k0 a b c, a <> b -> a <> c -> b <> c -> k3 <> 0 -> 0 <= k2 * k2 - 3 * k3 * k1 ->
  let q x := cubic k3 k2 k1 k0 x in let t := cubicMin a (q a) (cubic' k3 k2 k1 a) b (q b) c (q c) in
  cubic' k3 k2 k1 t = 0 /\ 0 <= cubic'' k3 k2 t.
Proof. exact cubicMin_right. Qed.
Print Assumptions C90_cubicMin.
Example C90_cubicMin_case : 0 <> 2 /\ 0 <> 3 /\ 2 <> 3 /\ 1 <> 0 /\ 0 <= 0 * 0 - 3 * 1 * -3.
Proof. repeat split; lra. Qed.

(* dcstep: the best step never gets worse, a bracketed minimum stays bracketed and the next trial lies inside it, a higher value or a change of slope brackets it, a bracket only shrinks *)
Theorem C90_dcstep : forall (v : dc R) fp dp stpmin stpmax, bracket v -> room v stpmin stpmax -> dp <> 0 -> let v' := dcstep v fp dp stpmin stpmax in
  bracket v' /\ fx v' <= fx v /\ fx v' <= fp /\ (brackt v = true -> brackt v' = true) /\ (fx v < fp \/ dx v * dp < 0 -> brackt v' = true) /\
  (brackt v = true -> let inside x := x = stx v \/ x = sty v \/ between x (stx v) (sty v) in inside (stx v') /\ inside (sty v')).
Proof. exact dcstep_keeps. Qed.
Print Assumptions C90_dcstep.
(* the parabola (x-3)^2 seen from 0 with the trial 1; the same with the bracket [0, 5] *)
Example C90_dcstep_case : let v b := mkDc 0 9 (-6) 5 4 4 1 b in (forall b, bracket (v b)) /\ (forall b, room (v b) 0 10) /\ -4 <> 0.
Proof. unfold bracket, room, between. cbn. repeat split; try lra; try (left; lra); right; lra. Qed.

(* dcstep on a parabola: as soon as the minimum is bracketed the next trial is the minimiser, before that it is the minimiser cut to the bounds *)
Theorem C90_dcstep_exact : forall (v : dc R) fp dp stpmin stpmax c m e, bracket v -> dp <> 0 -> 0 < c ->
  fx v = parabola c m e (stx v) -> dx v = parabola' c m (stx v) -> fp = parabola c m e (stp v) -> dp = parabola' c m (stp v) ->
  let v' := dcstep v fp dp stpmin stpmax in
  (fx v < fp \/ dx v * dp < 0 -> stp v' = m) /\ (fp <= fx v -> 0 < dx v * dp -> brackt v = false -> stp v' = Rmax (Rmin stpmax m) stpmin).
Proof. exact dcstep_exact. Qed.
Print Assumptions C90_dcstep_exact.
Example C90_dcstep_exact_case : let v s := mkDc 0 9 (-6) 0 9 (-6) s false in forall s, s = 1 \/ s = 4 \/ s = 7 ->
  bracket (v s) /\ parabola' 2 3 s <> 0 /\ fx (v s) = parabola 2 3 0 0 /\ dx (v s) = parabola' 2 3 0 /\ stp (dcstep (v s) (parabola 2 3 0 s) (parabola' 2 3 s) 0 10) = 3.
Proof.
  intros v s H. assert (bracket (v s)) as B. { unfold bracket. cbn. split; [destruct H as [->|[->| ->]]; lra|discriminate]. }
  assert (parabola' 2 3 s <> 0) as D by (unfold parabola'; destruct H as [->|[->| ->]]; lra).
  assert (fx (v s) = parabola 2 3 0 0) as F by (unfold parabola; cbn; lra). assert (dx (v s) = parabola' 2 3 0) as G by (unfold parabola'; cbn; lra).
  repeat (split; [assumption|]). destruct (dcstep_exact (v s) (parabola 2 3 0 s) (parabola' 2 3 s) 0 10 2 3 0 B D ltac:(lra) F G eq_refl eq_refl) as [E1 E2].
  destruct H as [->|[->| ->]].
  - rewrite E2; [rewrite Rmin_right, Rmax_left by lra; reflexivity| | |reflexivity]; unfold parabola, parabola'; cbn; lra.
  - apply E1. right. unfold parabola'. cbn. lra.
  - apply E1. left. unfold parabola. cbn. lra.
Qed.

(* what a bracket is: for a differentiable function it holds, strictly inside, a lowest point, where the slope vanishes *)
Theorem C90_bracket : forall phi phi' (v : dc R), (forall x, derivable_pt_lim phi x (phi' x)) -> bracket v -> brackt v = true ->
  fx v = phi (stx v) -> dx v = phi' (stx v) -> fy v = phi (sty v) -> dy v = phi' (sty v) ->
  exists t, between t (stx v) (sty v) /\ phi' t = 0 /\ phi t < phi (stx v) /\ forall u, between u (stx v) (sty v) -> phi t <= phi u.
Proof. exact bracket_means. Qed.
Print Assumptions C90_bracket.
Example C90_bracket_case : let v := mkDc 0 9 (-6) 5 4 4 1 true in
  (forall x, derivable_pt_lim (parabola 2 3 0) x (parabola' 2 3 x)) /\ bracket v /\ measured (parabola 2 3 0) (parabola' 2 3) v.
Proof.
  intros v. split; [|split].
  - intros x. unfold parabola. replace (parabola' 2 3 x) with (2 / 2 * (INR 2 * (x - 3) ^ 1 * (1 - 0)) + 0) by (unfold parabola'; cbn; field).
    apply (derivable_pt_lim_plus (fun x => 2 / 2 * (x - 3) ^ 2) (fun _ => 0)); [|apply derivable_pt_lim_const]. apply (derivable_pt_lim_scal (fun x => (x - 3) ^ 2)).
    apply (derivable_pt_lim_comp (fun x => x - 3) (fun y => y ^ 2)); [|apply (derivable_pt_lim_pow _ 2)]. apply (derivable_pt_lim_minus id (fun _ => 3)); [apply derivable_pt_lim_id|apply derivable_pt_lim_const].
  - unfold bracket, between. cbn. repeat split; try lra; try (left; lra); right; lra.
  - unfold measured, parabola, parabola'. cbn. repeat split; lra.
Qed.

(* in every search, whatever the function: the ends of the interval carry its values and slopes, also after the steps that work with the tilted function, and the best value never rises *)
Theorem C90_search : forall phi phi' init mn mx ftol xtol gtol s0, dcsrch_new init (phi 0) (phi' 0) mn mx ftol xtol gtol = Ok s0 -> forall n, let v := s_dc (search phi phi' n s0) in
  measured phi phi' v /\ fx v <= phi 0 /\ fx (s_dc (search phi phi' (S n) s0)) <= fx v.
Proof. exact search_kept. Qed.
Print Assumptions C90_search.
Example C90_search_case : exists s0, dcsrch_new 1 (parabola 2 3 0 0) (parabola' 2 3 0) 0 10 (1 / 10000) (1 / 1000) (1 / 10) = Ok s0 /\ stx (s_dc (search (parabola 2 3 0) (parabola' 2 3) 2 s0)) = 1.
Proof. exact search_toy. Qed.
