(** * C86 for the dog-leg policy (the vocabulary is that of Nlin_Props.v) *)
From Coq Require Import Reals List Bool ZArith.
From Verif Require Import Lib_Ring Lib_Real Policy_Model Policy_Spec Lin_Model Nlin_Model Nlin_Spec Nlin_Toy NlinDL_Model NlinDL_Proofs NlinDL_Toy.
From Verif Require Optimizer2_Model.
Open Scope R_scope.

(** the dog-leg policy, status DX, no step was NaN: the trust region has become tiny, or the last step is a full Gauss-Newton step, and at the state it was computed for every entry of the gradient
    is at most n L convergenceDeltaX. That state is the last one (or one short step away) if no step was rejected; after a rejected step it may be an older one (C25_stale_step_refuted). *)
Theorem C86_dog_leg_partial : forall X move n m e Jac solver, solves n m solver -> forall opt s0, let po := n_dog_leg X n m e Jac solver s0 in
  forall x l s nan, n_optimize X move n m e po opt x = Some l -> n_status X po opt l = Optimizer2_Model.DX -> n_pol X po l = Some (s, nan) ->
  exists xp d, maxabs n d <= o_dx opt /\ (n_x X po l = xp \/ n_x X po l = move xp d) /\
    (d_delta s <= sqrt (INR n) * o_dx opt \/
     exists xo, (xo = xp \/ (0 < n_fail X po l)%Z) /\ forall L, entries_below n m Jac xo L -> forall p, (p < n)%nat -> Rabs (gradient m e Jac xo p) <= INR n * L * o_dx opt).
Proof. exact dl_dx. Qed.
Print Assumptions C86_dog_leg_partial.
Example C86_dog_leg_case : solves 1 1 sv /\ exists l s, n_optimize R mv 1 1 eq_ (n_dog_leg R 1 1 eq_ jq sv dl_new) opt1 0 = Some l /\
  n_status R (n_dog_leg R 1 1 eq_ jq sv dl_new) opt1 l = Optimizer2_Model.DX /\ n_pol R _ l = Some (s, false) /\ n_x R _ l = -1.
Proof. exact (conj sv_solves dl_jump). Qed.
