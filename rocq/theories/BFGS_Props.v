(** * C33: the inverse Hessian approximation of BFGS, in exact arithmetic *)
From Coq Require Import ZArith Reals Lra Lia List Bool.
From Verif Require Import Lib_Ring Lib_Real Lib_Res Lib_Num LineSearch_Model LineSearch_Spec BFGS_Model BFGS_Spec BFGS_Proofs BFGS_Toy.
Import ListNotations.
Open Scope R_scope.

(** C33, one update: symmetric if the matrix was; maps the change of the gradient y to the step s; positive definite if the matrix was and y.s > 0. *)
Theorem C33_update : forall (n : nat) (B : mat R) (s y : vec R),
  (symmetric n B -> symmetric n (bfgs_update n B s y)) /\
  (vdot n y s <> 0 -> veq n (mvmul n (bfgs_update n B s y) y) s) /\
  (positive_definite n B -> 0 < vdot n y s -> positive_definite n (bfgs_update n B s y)).
Proof. exact (fun n B s y => conj (update_symmetric n B s y) (conj (update_secant n B s y) (update_pd n B s y))). Qed.
Print Assumptions C33_update.
Example C33_update_case : symmetric 2 mid /\ positive_definite 2 mid /\ 0 < vdot 2 (fun _ => 2) (fun _ => 1).
Proof. exact (conj (id_symmetric 2) (conj (id_pd 2) upd_case)). Qed.

(** C33, the direction computed from a positive definite matrix is a descent direction wherever the gradient does not vanish. *)
Theorem C33_direction : forall (n : nat) (B : mat R) (g : vec R),
  positive_definite n B -> (exists i, (i < n)%nat /\ g i <> 0) -> vdot n g (bfgs_direction n B g) < 0.
Proof. exact direction_descent. Qed.
Print Assumptions C33_direction.
Example C33_direction_case : positive_definite 2 mid /\ nonzero 2 (fun _ => 3).
Proof. exact (conj (id_pd 2) nz_case). Qed.

(** C33, whole runs, unconditionally: for every cost function, every start and any number of iterations, every matrix used is symmetric, every
    iteration uses the gradient of the point it leaves, moves by its step length along its direction, and never moves along an ascent direction. *)
Theorem C33_run : forall (W : Type) (n : nat) (errorOf : W -> R) (gradOf : W -> vec R) (update : W -> vec R -> W) (o : lsoptions R)
    (stop : lstate R W (vec R) -> bool) (m : nat) (w : W) (e d : R) (its : list (iter W)) (en : bfgs W),
  (forall p, additive (fun w a => update w (vscale a p))) -> check_ls o = true ->
  bfgs_loop n errorOf gradOf update o stop m (bfgs_start errorOf gradOf w e d) = Ok (its, en) ->
  Forall (fun it => symmetric n (i_B it)) its /\ symmetric n (bB en) /\
  Forall (fun it => i_g it = gradOf (i_from it) /\ i_p it = bfgs_direction n (i_B it) (i_g it) /\
    i_to it = update (i_from it) (vscale (i_alpha it) (i_p it)) /\ vdot n (i_g it) (i_p it) <= 0) its.
Proof. exact (fun W n eo go u o stop m w e d its en A C H =>
  let S := run_symmetric n eo go u o stop A C m _ its en (start_bok eo go w e d) (id_symmetric n) H in
  conj (proj1 S) (conj (proj2 S) (loop_links n eo go u o stop A C m _ its en (start_bok eo go w e d) H))). Qed.
Print Assumptions C33_run.
Example C33_run_case : (forall p, additive (fun w a => qu w (vscale a p))) /\ check_ls q_o = true /\
  exists its en, bfgs_loop 1 qe qg qu q_o q_stop 2 (bfgs_start qe qg 0 (qe 0 - 1) 0) = Ok (its, en) /\ map i_to its = [3 / 2; 3].
Proof. exact (conj q_additive (conj q_check (let '(ex_intro _ its (ex_intro _ en (conj H (conj _ (conj _ (conj T _)))))) := q_run in
  ex_intro _ its (ex_intro _ en (conj H T))))). Qed.

(** C33, whole runs: when c2 < 1 and no accepted step goes backwards, every matrix is positive definite, every search direction from a point with
    non-zero gradient is a strict descent direction, and every matrix maps the last change of the gradient to the last step.
    Missing: c2 < 1 is not required by the option check; that the second line search method never accepts a negative step is not proved. *)
Theorem C33_descent_partial : forall (W : Type) (n : nat) (errorOf : W -> R) (gradOf : W -> vec R) (update : W -> vec R -> W) (o : lsoptions R)
    (stop : lstate R W (vec R) -> bool) (m : nat) (w : W) (e d : R) (its : list (iter W)) (en : bfgs W),
  (forall p, additive (fun w a => update w (vscale a p))) -> check_ls o = true -> c2 o < 1 ->
  bfgs_loop n errorOf gradOf update o stop m (bfgs_start errorOf gradOf w e d) = Ok (its, en) ->
  Forall (fun it => 0 <= i_alpha it /\ nonzero n (i_g it)) its ->
  Forall (fun it => positive_definite n (i_B it) /\ vdot n (i_g it) (i_p it) < 0) its /\ positive_definite n (bB en) /\
  secant_chain n gradOf its.
Proof. exact (fun W n eo go u o stop m w e d its en A C C2 H F =>
  let S := loop_pd n eo go u o stop A C m _ its en C2 (start_bok eo go w e d) (id_pd n) H F in
  conj (proj1 S) (conj (proj1 (proj2 S)) (proj1 (proj2 (proj2 S))))). Qed.
Print Assumptions C33_descent_partial.
Example C33_descent_case : exists its en,
  bfgs_loop 1 qe qg qu q_o q_stop 2 (bfgs_start qe qg 0 (qe 0 - 1) 0) = Ok (its, en) /\
  Forall (fun it => 0 <= i_alpha it /\ nonzero 1 (i_g it)) its /\ map i_from its = [0; 3 / 2] /\ map i_to its = [3 / 2; 3] /\ c2 q_o < 1.
Proof. exact q_run. Qed.

(** C33: without positive curvature (possible when c2 >= 1) the update destroys positive definiteness. *)
Theorem C33_curvature_needed_refuted : exists (s y : vec R), vdot 1 y s <> 0 /\ positive_definite 1 mid /\ ~ positive_definite 1 (bfgs_update 1 mid s y).
Proof. exact negative_curvature. Qed.
Print Assumptions C33_curvature_needed_refuted.
