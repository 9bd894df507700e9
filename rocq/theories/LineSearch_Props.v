(** * C30, C31, C32: the line search *)
From Coq Require Import ZArith Reals Lra List Bool.
From Verif Require Import Lib_Res Lib_Float Lib_Num LineSearch_Model LineSearch_Spec LineSearch_Proofs LineSearch_ProofsR LineSearch_ProofsB LineSearch_ProofsC
  LineSearch_Toy LineSearch_ToyR.
Import ListNotations.

(** C30. lineSearchWolfe1 in exact arithmetic: on success both strong Wolfe conditions hold for the configured constants, the design variables
    are the start moved by the reported step, and error, gradient and slope are those of the new point. *)
Theorem C30_wolfe1 : forall (W G : Type) (errorOf : W -> R) (gradOf : W -> G) (slope : G -> R) (moveBy : W -> R -> W) (o : lsoptions R)
    (l l' : lstate R W G),
  additive moveBy -> ready errorOf gradOf slope l ->
  lineSearchWolfe1 errorOf gradOf slope moveBy o l = Ok (true, l') ->
  l_world l' = moveBy (l_world l) (l_step l') /\ current errorOf gradOf slope l' /\
  sufficient_decrease (c1 o) (l_error l) (l_derror l) (l_step l') (l_error l') /\
  strong_curvature (c2 o) (l_derror l) (l_derror l').
Proof. exact (fun W G e g s m o l l' A Rd H => let P := wolfe1_R e g s m A o l true l' Rd H in
  conj (proj1 (proj2 P)) (conj (proj1 P) (proj2 (proj2 P) eq_refl))). Qed.
Print Assumptions C30_wolfe1.
Example C30_wolfe1_case : additive Rplus /\ ready parR_e parR_d (fun g => g) parR_start /\
  lineSearchWolfe1 parR_e parR_d (fun g => g) Rplus parR_o parR_start = Ok (true, parR_end 1) /\ l_derror parR_start = (2 * (0 - 3))%R.
Proof. exact (conj parR_additive (conj parR_ready (conj parR_run eq_refl))). Qed.

(** The same for doubles (and any other arithmetic): the conditions hold as computed, the design variables were moved by the differences of
    successive step lengths; or the slope was zero and nothing moved. *)
Theorem C30_wolfe1_computed : forall (N W G : Type) (A : Num N) (errorOf : W -> N) (gradOf : W -> G) (slope : G -> N) (moveBy : W -> N -> W)
    (o : lsoptions N) (l l' : lstate N W G),
  ready errorOf gradOf slope l ->
  lineSearchWolfe1 errorOf gradOf slope moveBy o l = Ok (true, l') ->
  current errorOf gradOf slope l' /\ reached moveBy (l_world l) (l_step l') (l_world l') /\
  ((neq (l_derror l) (nlit 0 1) = true /\ l_step l' = nlit 0 1 /\ l_world l' = l_world l) \/
   (nle (l_error l') (nadd (l_error l) (nmul (l_step l') (nmul (c1 o) (l_derror l)))) = true /\
    nle (nabs (l_derror l')) (nmul (nopp (c2 o)) (l_derror l)) = true)).
Proof. exact (fun N W G A e g s m o l l' Rd H => let P := wolfe1_any e g s m o l true l' Rd H in
  conj (proj1 P) (conj (proj1 (proj2 P)) (proj2 (proj2 P) eq_refl))). Qed.
Print Assumptions C30_wolfe1_computed.
Example C30_wolfe1_computed_case : ready par_e par_d (fun g => g) (lsstart par_e par_d f0) /\
  exists l, search1 default_ls par_e par_d f0 = Ok (true, l) /\ l_step l = fz 1 /\ l_error l = fz 4.
Proof. exact (conj (lsstart_ready _ _ _) par_run). Qed.

(** The search used by the BFGS optimizer (first method with the second as fall-back): curvature, position and a decrease.
    Missing: sufficient decrease when the fall-back ends in zoom, which compares with the slope at the lower end of the interval instead of the
    slope at the start; see C30_sufficient_decrease_refuted. *)
Theorem C30_wolfe12_partial : forall (W G : Type) (errorOf : W -> R) (gradOf : W -> G) (slope : G -> R) (moveBy : W -> R -> W) (o : lsoptions R)
    (l l' : lstate R W G),
  additive moveBy -> check_ls o = true -> (l_derror l <= 0)%R -> ready errorOf gradOf slope l ->
  lineSearchWolfe12 errorOf gradOf slope moveBy o l = Ok (true, l') ->
  l_world l' = moveBy (l_world l) (l_step l') /\ current errorOf gradOf slope l' /\
  strong_curvature (c2 o) (l_derror l) (l_derror l') /\
  (sufficient_decrease (c1 o) (l_error l) (l_derror l) (l_step l') (l_error l') \/ (l_error l' < l_error l)%R).
Proof. exact (fun W G e g s m o l l' A Ck D Rd H => let P := wolfe12_R e g s m A o l true l' Ck D Rd H in
  conj (proj1 (proj1 P)) (proj2 P eq_refl)). Qed.
Print Assumptions C30_wolfe12_partial.
Example C30_wolfe12_case : additive Rplus /\ check_ls parR_o = true /\ ready parR_e parR_d (fun g => g) parR_start /\
  lineSearchWolfe12 parR_e parR_d (fun g => g) Rplus parR_o parR_start = Ok (true, parR_end 1).
Proof. exact (conj parR_additive (conj parR_check (conj parR_ready parR_run12))). Qed.

(** When the three searches throw and when they return, in any arithmetic: a stale or undefined error or slope makes all three throw; the first
    (and the one used by BFGS) also throws when its first step length is outside of the limits or the slope is positive; in all other cases they
    return. *)
Theorem C30_outcomes : forall (N W G : Type) (A : Num N) (errorOf : W -> N) (gradOf : W -> G) (slope : G -> N) (moveBy : W -> N -> W) (o : lsoptions N)
    (l : lstate N W G),
    (l_eOut l = true \/ l_dOut l = true ->
       lineSearchWolfe1 errorOf gradOf slope moveBy o l = Throw /\ lineSearchWolfe2 errorOf gradOf slope moveBy o l = Throw /\
       lineSearchWolfe12 errorOf gradOf slope moveBy o l = Throw) /\
    (l_eOut l = false -> l_dOut l = false ->
       (nnan (l_error l) = true \/ nnan (l_derror l) = true -> lineSearchWolfe1 errorOf gradOf slope moveBy o l = Throw /\
          lineSearchWolfe2 errorOf gradOf slope moveBy o l = Throw /\ lineSearchWolfe12 errorOf gradOf slope moveBy o l = Throw) /\
       (nnan (l_error l) = false -> nnan (l_derror l) = false ->
          (exists b l', lineSearchWolfe2 errorOf gradOf slope moveBy o l = Ok (b, l')) /\
          (step_allowed o l = true /\ downhill l = true -> (exists b l', lineSearchWolfe1 errorOf gradOf slope moveBy o l = Ok (b, l')) /\
             exists b l', lineSearchWolfe12 errorOf gradOf slope moveBy o l = Ok (b, l')) /\
          (step_allowed o l = false \/ downhill l = false -> lineSearchWolfe1 errorOf gradOf slope moveBy o l = Throw /\
             lineSearchWolfe12 errorOf gradOf slope moveBy o l = Throw))).
Proof. exact (fun N W G A => @search_outcomes N W G A). Qed.
Print Assumptions C30_outcomes.
Example C30_outcomes_case : let l := lsstart par_e par_d f0 in l_eOut l = false /\ l_dOut l = false /\ nnan (l_error l) = false /\
  nnan (l_derror l) = false /\ step_allowed default_ls l = true /\ downhill l = true.
Proof. repeat split; vm_compute; reflexivity. Qed.
(** At slope zero the searches report success and move nothing. *)
Theorem C30_stationary : forall (N W G : Type) (A : Num N) (errorOf : W -> N) (gradOf : W -> G) (slope : G -> N) (moveBy : W -> N -> W) (o : lsoptions N)
    (l : lstate N W G), l_eOut l = false -> l_dOut l = false -> nnan (l_error l) = false -> nnan (l_derror l) = false ->
    neq (l_derror l) (nlit 0 1) = true ->
    (exists l', lineSearchWolfe2 errorOf gradOf slope moveBy o l = Ok (true, l') /\ l_world l' = l_world l /\ l_step l' = l_step l /\ l_error l' = l_error l) /\
    (nle (minStep o) (initStep o) = true -> nle (initStep o) (maxStep o) = true ->
     exists l', lineSearchWolfe12 errorOf gradOf slope moveBy o l = Ok (true, l') /\ l_world l' = l_world l /\ l_step l' = l_step l /\ l_error l' = l_error l).
Proof. exact (fun N W G A => @stationary N W G A). Qed.
Print Assumptions C30_stationary.
Example C30_stationary_case : let l := lsstart par_e par_d (fz 3) in l_eOut l = false /\ l_dOut l = false /\ nnan (l_error l) = false /\
  nnan (l_derror l) = false /\ neq (l_derror l) (nlit 0 1) = true /\ nle (minStep default_ls) (initStep (default_ls : lsoptions b64)) = true /\
  nle (initStep default_ls) (maxStep (default_ls : lsoptions b64)) = true.
Proof. repeat split; vm_compute; reflexivity. Qed.
(** With the default options, on a parabola and in a direction of descent, the search throws after an iteration that gained 2^-30: the first step
    length computed from that gain is below the limit. *)
Theorem C30_tiny_progress_refuted : let l := mkLS (par_d f0) f0 (par_e f0) (fadd (par_e f0) (fl 1 (-30))) (par_d f0) false false f0 in
  check_ls (default_ls : lsoptions b64) = true /\ ready par_e par_d (fun g => g) l /\ flt (l_derror l) f0 = true /\
  flt (l_error l) (l_errorOld l) = true /\ lineSearchWolfe12 par_e par_d (fun g => g) fadd default_ls l = Throw.
Proof. exact tiny_progress. Qed.
Print Assumptions C30_tiny_progress_refuted.

(** A polynomial of degree six and admissible options for which the search reports success although the sufficient-decrease test fails. *)
Theorem C30_sufficient_decrease_refuted : exists (errorOf gradOf : b64 -> b64) (o : lsoptions b64) (l l' : lstate b64 b64 b64),
  check_ls o = true /\ ready errorOf gradOf (fun g => g) l /\
  lineSearchWolfe12 errorOf gradOf (fun g => g) fadd o l = Ok (true, l') /\
  flt (fadd (l_error l) (fmul (fmul (c1 o) (l_step l')) (l_derror l))) (l_error l') = true.
Proof. exact six_refutes. Qed.
Print Assumptions C30_sufficient_decrease_refuted.

(** C31. Step lengths of the first method in double precision: whatever the objective and however many iterations are allowed, the step length
    is within the configured bounds, or 0, or not a number. Missing: 0 and NaN cannot be excluded; see C31_lower_bound_refuted. *)
Theorem C31_steps_partial : forall (W G : Type) (errorOf : W -> b64) (gradOf : W -> G) (slope : G -> b64) (moveBy : W -> b64 -> W)
    (o : lsoptions b64) (l l' : lstate b64 W G) (ok : bool),
  fle (minStep o) (maxStep o) = true -> l_step l = fz 0 ->
  lineSearchWolfe1 errorOf gradOf slope moveBy o l = Ok (ok, l') ->
  (fle (minStep o) (l_step l') = true /\ fle (l_step l') (maxStep o) = true) \/ l_step l' = fz 0 \/ isnan (l_step l') = true.
Proof. exact (fun W G e g s m o l l' ok M Z H =>
  wolfe1_ends (step_b64 (minStep o) (maxStep o)) e g s m o l ok l' (or_intror (or_introl eq_refl)) (fun x => clamp_b64 _ _ x M)
    (fun x a b => or_introl (conj a b)) Z H). Qed.
Print Assumptions C31_steps_partial.
Example C31_steps_case : fle (minStep default_ls) (maxStep default_ls) = true /\
  exists l, search1 default_ls par_e par_d f0 = Ok (true, l) /\ l_step l = fz 1 /\ l_error l = fz 4.
Proof. exact (conj default_bounds par_run). Qed.

(** In exact arithmetic, for every sequence of errors and slopes answered to the trial steps. *)
Theorem C31_trials_partial : forall (init e0 d0 mn mx ftol xtol gtol : R) (s0 s : dcsrch R) (h : list (R * R)),
  (mn <= init <= mx)%R ->
  dcsrch_new init e0 d0 mn mx ftol xtol gtol = Ok s0 -> running s0 e0 h s ->
  (mn <= stp (s_dc s) <= mx)%R \/ stp (s_dc s) = 0%R.
Proof. exact trials_R. Qed.
Print Assumptions C31_trials_partial.
Example C31_trials_case : (1 <= 2 <= 50)%R /\ exists s0 s, dcsrch_new 2%R 0%R (-1)%R 1%R 50%R (1/10000)%R (1/1000000)%R (9/10)%R = Ok s0 /\
  running s0 0%R [(2%R, 5%R); (nlit 0 1, 0%R)] s.
Proof. exact trials_case. Qed.

(** With the lower bound 0.5 the second trial step is 0: the code resets the step to the best point when the bounded step equals the configured
    bound (it compares with the configured bounds instead of the current interval). *)
Theorem C31_lower_bound_refuted : exists (s0 s : dcsrch b64) (h : list (b64 * b64)),
  dcsrch_new (fz 1) (fz 0) (fz (-1)) (fl 1 (-1)) (fz 50) (nlit 1 10000) (nlit 1 100000000000000) (nlit 9 10) = Ok s0 /\
  running s0 (fz 0) h s /\ s_status s = RUNNING /\ flt (stp (s_dc s)) (fl 1 (-1)) = true.
Proof. exact (ex_intro _ low0 (ex_intro _ low2 (ex_intro _ _ (conj low_ok (conj low_running
  (conj (proj1 low_facts) (proj2 (proj2 (proj2 low_facts))))))))). Qed.
Print Assumptions C31_lower_bound_refuted.

(** The ends of the interval are evaluated points and the first end has the least of all evaluated errors, provided every trial either decreases
    the error sufficiently or not at all. Missing: trials that decrease the error too little, for which the modified function is used; see
    C31_best_end_refuted. *)
Theorem C31_best_end_partial : forall (init e0 d0 mn mx ftol xtol gtol : b64) (s0 s : dcsrch b64) (h : list (b64 * b64)),
  isnan e0 = false ->
  dcsrch_new init e0 d0 mn mx ftol xtol gtol = Ok s0 -> running s0 e0 h s -> s_status s = RUNNING ->
  (forall st e, In (st, e) (removelast h) -> isnan e = false /\ (fle e (fadd e0 (fmul st (fmul ftol d0))) = true \/ flt e0 e = true)) ->
  In (stx (s_dc s), fx (s_dc s)) h /\ In (sty (s_dc s), fy (s_dc s)) h /\
  (forall st e, In (st, e) h -> fle (fx (s_dc s)) e = true).
Proof. exact best_end. Qed.
Print Assumptions C31_best_end_partial.
Example C31_best_end_case : mod_new = Ok mod0 /\ running mod0 f0 fair_hist fair3 /\ s_status fair3 = RUNNING /\ brackt (s_dc fair3) = true /\
  (flt f0 (fz 10) = true /\ fle (nlit (-3) 10) (fadd f0 (fmul (stp (s_dc fair2)) (s_gtest mod0))) = true).
Proof. exact (conj mod_ok (conj fair_running (conj (proj1 fair_facts) (conj (proj1 (proj2 fair_facts)) (proj2 (proj2 (proj2 fair_facts))))))). Qed.

(** A bracketed run in which a step with error -0.1 was tried but both ends of the interval have a higher error. *)
Theorem C31_best_end_refuted : exists (s0 s : dcsrch b64) (h : list (b64 * b64)) (st e : b64),
  dcsrch_new (fz 1) (fz 0) (fz (-1)) (nlit 1 100000000) (fz 50) (fl 1 (-1)) (nlit 1 100000000000000) (nlit 9 10) = Ok s0 /\
  running s0 (fz 0) h s /\ s_status s = RUNNING /\ brackt (s_dc s) = true /\ In (st, e) h /\
  flt e (fx (s_dc s)) = true /\ flt e (fy (s_dc s)) = true.
Proof. exact (ex_intro _ mod0 (ex_intro _ mod3 (ex_intro _ mod_hist (ex_intro _ (stp (s_dc mod1)) (ex_intro _ (nlit (-1) 10)
  (conj mod_ok (conj mod_running (conj (proj1 mod_facts) (conj (proj1 (proj2 mod_facts))
    (conj (or_intror (or_introl eq_refl)) (proj2 (proj2 mod_facts)))))))))))). Qed.
Print Assumptions C31_best_end_refuted.

(** C32. After a failed search the design variables are the start moved by the reported step, so that going back to step length 0 restores them,
    and the error is that of the design variables. Missing: the search does not go back itself; see C32_restores_refuted. *)
Theorem C32_can_go_back_partial : forall (W G : Type) (errorOf : W -> R) (gradOf : W -> G) (slope : G -> R) (moveBy : W -> R -> W) (o : lsoptions R)
    (l l' : lstate R W G),
  additive moveBy -> check_ls o = true -> (l_derror l <= 0)%R -> ready errorOf gradOf slope l ->
  lineSearchWolfe12 errorOf gradOf slope moveBy o l = Ok (false, l') ->
  l_world l' = moveBy (l_world l) (l_step l') /\ (l_eOut l' = false -> l_error l' = errorOf (l_world l')) /\
  l_world (applyStateUpdate moveBy 0%R l') = l_world l.
Proof. exact (fun W G e g s m o l l' A Ck D Rd H => let P := proj1 (wolfe12_R e g s m A o l false l' Ck D Rd H) in
  conj (proj1 P) (conj (proj2 P) (back_to_start m A l' (l_world l) (proj1 P)))). Qed.
Print Assumptions C32_can_go_back_partial.
Example C32_can_go_back_case : check_ls slideR_o = true /\ ready Ropp (fun _ => -1)%R (fun g => g) slideR_start /\
  exists l, lineSearchWolfe12 Ropp (fun _ => -1)%R (fun g => g) Rplus slideR_o slideR_start = Ok (false, l) /\ (0 < l_world l)%R.
Proof. exact (conj slideR_check (conj slideR_ready slideR_run)). Qed.

(** With the default options: a failed search leaves the design variable at 1024 (started at 0) and the error at -1024. *)
Theorem C32_restores_refuted : exists (errorOf gradOf : b64 -> b64) (l l' : lstate b64 b64 b64),
  check_ls (default_ls (N := b64)) = true /\ ready errorOf gradOf (fun g => g) l /\ l_world l = fz 0 /\
  lineSearchWolfe12 errorOf gradOf (fun g => g) fadd default_ls l = Ok (false, l') /\ l_world l' = fz 1024 /\ l_error l' = fz (-1024).
Proof. exact slide_refutes. Qed.
Print Assumptions C32_restores_refuted.
