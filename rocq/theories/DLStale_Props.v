(** * The dog-leg policy after a rejected step: C25 *)
From Coq Require Import Reals.
From Verif Require Import Lib_Ring Lib_Real Policy_Model Policy_Spec Policy_Proofs3 DLStale_Spec DLStale_Proofs.
Open Scope R_scope.

(** the step proposed after a rejected step need not belong to the current state.  There is a differentiable error and a run of three calls, all with regular Gauss-Newton systems and successful
    solves: the first step is accepted, the second raises the cost and is taken back, and the third is the Gauss-Newton step of the first state, although the Gauss-Newton and the Cauchy step of
    the current state coincide and fit into the region.  The cost grows along the proposed step.  (The second call took a cut steepest descent step without solving for a Gauss-Newton step, and
    the gain ratio of the rejected step was measured against the cost before the first step, so that the region was enlarged.) *)
Theorem C25_stale_step_refuted :
  exists e de : R -> R, (forall x, derivable_pt_lim e x (de x)) /\
  exists s1 s2 s3 d1 d2 d3, let x0 := 0 in let x1 := x0 + d1 O in let x2 := x1 + d2 O in
    (forall J pf, gn_system 1 (call_at e de J pf x0) /\ gn_system 1 (call_at e de J pf x1)) /\
    dl_solve 1 (dl_start dl_new (e x0 ^ 2)) (cv 0) (call_at e de (e x0 ^ 2) false x0) = DLok true d1 s1 /\ e x1 ^ 2 < e x0 ^ 2 /\
    dl_solve 1 s1 d1 (call_at e de (e x1 ^ 2) false x1) = DLok true d2 s2 /\ e x1 ^ 2 < e x2 ^ 2 /\
    dl_solve 1 s2 d2 (call_at e de (e x2 ^ 2) true x1) = DLok true d3 s3 /\
    d3 O = - e x0 / de x0 /\ 0 < slope e de x1 * d3 O /\
    norm 1 (cv (- e x1 / de x1)) < d_delta s3 /\ veq 1 (cauchy 1 (cfresh (call_at e de (e x1 ^ 2) true x1))) (cv (- e x1 / de x1)).
Proof. exact dl_stale. Qed.
Print Assumptions C25_stale_step_refuted.
