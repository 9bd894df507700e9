(** * Optimizer (v1): property C29 *)
From Coq Require Import ZArith List Bool.
From Flocq Require Import BinarySingleNaN.
From Verif Require Import Lib_Res Lib_Float Optimizer2_Model Optimizer1_Model Optimizer1_Spec Optimizer1_Proofs Optimizer1_Damp Optimizer1_Toy.
Import ListNotations.
Open Scope Z_scope.

(** The loop ends, for every environment and every options setting. *)
Theorem C29_terminates : forall W (E : env1 W) o J w, optimize1 E o J w <> None.
Proof. exact (fun W => @terminates1 W). Qed.
Print Assumptions C29_terminates.

(** For every environment that respects the contract of design variables and error terms, the run is a sequence of failed solves, kept
    and undone steps; [walk1] says where the design variables are after them.
    Missing for the full property (see the refuted theorems): failed solves and a last step that was undone must be excluded, and damping
    must be on.  Then: the design variables end in a kept state (or the start) whose cost is least among all kept costs and at most the
    starting cost; and the reported cost is the cost of that state. *)
Theorem C29_best_state_partial : forall W (E : env1 W) o V (val saved : W -> V) cost, faithful1 E val saved cost ->
  forall J w r l, optimize1 E o J w = Some (Ok (r, l)) -> exists os,
    rev (lgl l) = OEval (rJStart r) :: flat_map actions1 os /\
    walk1 (moves1 E val) cost (val w) (saved w) os (val (wld l)) /\
    (doLM o = true -> regular (rJStart r) os ->
      fle (cost (val (wld l))) (rJStart r) = true /\
      (forall c g, In (Kept c g) os -> fle (cost (val (wld l))) c = true) /\
      (cost (val (wld l)) = rJStart r \/ exists g, In (Kept (cost (val (wld l))) g) os)) /\
    (~ In Failed os -> (forall c g, last os Failed <> Undone c g) -> rJFinal r = cost (val (wld l))).
Proof. exact best_state1. Qed.
Print Assumptions C29_best_state_partial.

(** The complete account of a run: number of iterations (at most the limit) and of failures, which steps were undone, where the design
    variables are, and that the reported cost is the cost evaluated last. *)
Theorem C29_history : forall W (E : env1 W) o V (val saved : W -> V) cost, faithful1 E val saved cost ->
  forall J w r l, optimize1 E o J w = Some (Ok (r, l)) -> exists os,
      rev (lgl l) = OEval (rJStart r) :: flat_map actions1 os /\
      rIterations r = Z.of_nat (length os) /\ rIterations r <= Z.max 0 (maxIter o) /\ rFailed r = failures1 os /\
      rJStart r = cost (val w) /\ rJFinal r = last_cost (rJStart r) os /\
      judged1 (doLM o) (rJStart r) (rJStart r) os /\
      walk1 (moves1 E val) cost (val w) (saved w) os (val (wld l)).
Proof. exact (fun W E o V val saved cost F => @history1 W E o V val saved cost F). Qed.
Print Assumptions C29_history.

Example C29_example : faithful1 toy1_env tx ts toy1_cost /\
  (exists r l, toy1_run true 3 9 [(true, -3); (true, 20); (true, -6)] = Some (Ok (r, l)) /\
    rev (lgl l) = OEval (rJStart r) :: flat_map actions1 [Kept (fz 36) (fz 1); Undone (fz 676) (fz 1); Kept (fz 0) (fz 1)] /\
    tx (wld l) = 0 /\ rJFinal r = fz 0 /\ rJStart r = fz 81) /\
  regular (fz 81) [Kept (fz 36) (fz 1); Undone (fz 676) (fz 1); Kept (fz 0) (fz 1)].
Proof. exact (conj toy1_faithful (conj toy1_regular toy1_regular_hyp)). Qed.

(** A failed linear solve does undo an accepted step: from 9 a step to 6 is kept, the next solve fails, the state is 9 again, and the
    reported cost 36 belongs to no state the caller has. *)
Theorem C29_failed_solve_refuted : exists r l, toy1_run true 2 9 [(true, -3); (false, 0)] = Some (Ok (r, l)) /\
  rev (lgl l) = [OEval (fz 81); OSolve true; OApply; OEval (fz 36); OSolve false; ORevert] /\
  tx (wld l) = 9 /\ rJFinal r = fz 36 /\ flt (rJFinal r) (toy1_cost (tx (wld l))) = true.
Proof. exact toy1_failed_solve. Qed.
Print Assumptions C29_failed_solve_refuted.

(** The cost of an undone step is reported when it was the last one (here 676, the state has cost 36, the start had 81). *)
Theorem C29_reported_cost_refuted : exists r l, toy1_run true 2 9 [(true, -3); (true, 20)] = Some (Ok (r, l)) /\
  rev (lgl l) = [OEval (fz 81); OSolve true; OApply; OEval (fz 36); OSolve true; OApply; OEval (fz 676); ORevert] /\
  tx (wld l) = 6 /\ rJFinal r = fz 676 /\ flt (rJStart r) (rJFinal r) = true.
Proof. exact toy1_rejected_reported. Qed.
Print Assumptions C29_reported_cost_refuted.

(** Without damping, a step that raises the cost is kept. *)
Theorem C29_gauss_newton_refuted : exists r l, toy1_run false 1 2 [(true, 5)] = Some (Ok (r, l)) /\
  tx (wld l) = 7 /\ rJStart r = fz 4 /\ rJFinal r = fz 49.
Proof. exact toy1_gn_worse. Qed.
Print Assumptions C29_gauss_newton_refuted.

(** Without damping, after one failed solve the linear system is never rebuilt: all later solves (at the values 0, 5 and 2) use the
    system of the starting value 9.  The failed first solve also "reverts" to 0, a value the caller never set. *)
Theorem C29_stale_system_refuted : exists r l, toy1_run false 4 9 [(false, 0); (true, 5); (true, -3); (true, -1)] = Some (Ok (r, l)) /\
  rev (tused (wld l)) = [(9, 9); (0, 9); (5, 9); (2, 9)] /\ tx (wld l) = 1.
Proof. exact toy1_stale. Qed.
Print Assumptions C29_stale_system_refuted.

(** The initial damping estimated from the diagonal is the scale times the largest absolute diagonal entry: with one scalar design variable.
    Missing: larger problems, where it is not so (see the two theorems that follow). *)
Theorem C29_initial_lambda_partial : forall o (H : Z -> Z -> b64), fle (lambdaScale o) f0 = false -> fgt (fabs (H 0 0)%Z) f0 = true ->
  setInitialLambda o [Some (1%Z, H)] f0 = Ok (fmul (fabs (H 0 0)%Z) (lambdaScale o)).
Proof. exact lambda_one. Qed.
Print Assumptions C29_initial_lambda_partial.
Example C29_initial_lambda_case : fle (fz 1) f0 = false /\ fgt (fabs (fz (-4))) f0 = true.
Proof. split; vm_compute; reflexivity. Qed.

(** The initial damping estimated from the diagonal: undefined behaviour with two scalar design variables ... *)
Theorem C29_initial_lambda_refuted : setInitialLambda (mkOptions1 f0 f0 1 f0 (fz 3) 2 3 (fz 2) (fz 1) true)
   [Some (1, fun _ _ => fz 1); Some (1, fun _ _ => fz 2)] f0 = UB.
Proof. exact lambda_oob. Qed.
Print Assumptions C29_initial_lambda_refuted.
(** ... and zero for one two-dimensional design variable with diagonal 5, 6 *)
Theorem C29_initial_lambda_entry_refuted : exists x, setInitialLambda (mkOptions1 f0 f0 1 f0 (fz 3) 2 3 (fz 2) (fz 1) true)
   [Some (2, fun i j => if i =? j then fz (5 + i) else fz 0)] f0 = Ok x /\ x = f0.
Proof. exact lambda_wrong_entry. Qed.
Print Assumptions C29_initial_lambda_entry_refuted.

(** The damping after a step that was kept, as computed in doubles and for every pow function: with beta = 2 and 1 / gamma in (0, 1] it does not
    grow when (2 rho - 1)^p is not negative (rho at least 1/2 for odd p), does not shrink when it is not positive, stays when it is zero; it is multiplied by
    the larger one of 1 / gamma and 1 - (2 rho - 1)^p, and the factor for the next failure is reset. Missing: other values of beta; dampings up to 1e-16, which become 1e-15. *)
Theorem C29_damping_partial : forall W (E : env1 W) o rho l m, lmBeta o = 2%Z -> flt f0 (fdiv (fz 1) (lmGamma o)) = true -> fle (fdiv (fz 1) (lmGamma o)) (fz 1) = true ->
  fgt l (fl 2028240960365167 (-104)) = true -> is_finite l = true ->
  is_finite (v_pow E (fsub (fmul (fz 2) rho) (fz 1)) (lmP o)) = true ->
  let P := v_pow E (fsub (fmul (fz 2) rho) (fz 1)) (lmP o) in
  (fle f0 P = true -> fle (fst (new_lambda E o rho l m)) l = true /\ fle f0 (fst (new_lambda E o rho l m)) = true) /\
  (fle P f0 = true -> fle l (fst (new_lambda E o rho l m)) = true) /\
  (P = f0 -> fst (new_lambda E o rho l m) = l) /\
  (fle (fdiv (fz 1) (lmGamma o)) (fsub (fz 1) P) = true -> fst (new_lambda E o rho l m) = fmul l (fsub (fz 1) P)) /\
  (fgt (fdiv (fz 1) (lmGamma o)) (fsub (fz 1) P) = true -> fst (new_lambda E o rho l m) = fmul l (fdiv (fz 1) (lmGamma o))) /\
  snd (new_lambda E o rho l m) = fz 2.
Proof. exact damping_kept. Qed.
Print Assumptions C29_damping_partial.
Example C29_damping_case : let o := toy1_opt true 3 in lmBeta o = 2 /\ flt f0 (fdiv (fz 1) (lmGamma o)) = true /\
  fle (fdiv (fz 1) (lmGamma o)) (fz 1) = true /\ fgt (fz 4) (fl 2028240960365167 (-104)) = true /\ is_finite (fz 4) = true /\
  is_finite (v_pow toy1_env (fsub (fmul (fz 2) (fz 1)) (fz 1)) (lmP o)) = true /\
  fst (new_lambda toy1_env o (fz 1) (fz 4) (fz 8)) = fmul (fz 4) (fdiv (fz 1) (fz 3)).
Proof. repeat split; vm_compute; reflexivity. Qed.
