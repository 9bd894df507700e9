(** * C34: the step sizes of Rprop, in double precision, for all four update rules *)
From Coq Require Import ZArith List Bool.
From Flocq Require Import BinarySingleNaN.
From Verif Require Import Lib_Float Lib_Num Rprop_Model Rprop_Spec Rprop_Proofs Rprop_Toy.
Import ListNotations.

(** C34. For every cost function, start, stopping decisions and any number of iterations, with sane options: in every iteration and coordinate
    - the step size is within [minDelta, maxDelta] before and after;
    - the change dx is plus or minus the new step size, or zero, or (only where the gradient changed sign) plus or minus the old step size;
    - dx goes against the sign of the gradient, and is zero where the gradient is zero (or not a number);
    - where the gradient changed sign the step size does not grow, it is the old one times etaMinus or minDelta;
    - the design variables are changed by exactly these dx.
    Missing: the option check accepts options that are not sane, see the refutations below. *)
Theorem C34_steps_partial : forall (W : Type) (gradientOf : W -> nat -> b64) (errorOf : W -> b64) (apply : W -> (nat -> b64) -> W)
    (stop_gradient stop_dx : (nat -> b64) -> bool) (stop_error : b64 -> b64 -> bool) (o : roptions) (m : nat) (w : W),
  sane o ->
  let run := rprop_loop gradientOf errorOf apply stop_gradient stop_dx stop_error o m (rprop_reset o w) in
  Forall (fun p : rstate W * rstate W =>
    let (s, s') := p in forall d, let c := coords s d in let c' := coords s' d in let g := gradientOf (rworld s) d in
    within o c /\ within o c' /\
    (r_dx c' = r_delta c' \/ r_dx c' = fopp (r_delta c') \/ feq (r_dx c') f0 = true \/
     (flt (fmul (r_prev c) g) f0 = true /\ (r_dx c' = r_delta c \/ r_dx c' = fopp (r_delta c)))) /\
    (flt f0 g = true -> fle (r_dx c') f0 = true) /\ (flt g f0 = true -> fle f0 (r_dx c') = true) /\
    (flt f0 g = false -> flt g f0 = false -> feq (r_dx c') f0 = true) /\
    (flt (fmul (r_prev c) g) f0 = true -> fle (r_delta c') (r_delta c) = true /\
       (r_delta c' = fmul (r_delta c) (etaMinus o) \/ r_delta c' = minDelta o))) run /\
  Forall (fun p : rstate W * rstate W => rworld (snd p) = apply (rworld (fst p)) (fun d => r_dx (coords (snd p) d))) run.
Proof. exact (fun W g e a s1 s2 s3 o m w S => conj (run_step o S g e a s1 s2 s3 m w) (run_moves o g e a s1 s2 s3 m _)). Qed.
Print Assumptions C34_steps_partial.
Example C34_steps_case : (forall m, sane (dft m)) /\ exists s s', In (s, s') (rrun (dft RPROP_PLUS) 3 (nlit 5 100)) /\
  switchYes (coords s 0) (rworld s) = true /\ flt (r_delta (coords s' 0)) (fabs (r_dx (coords s' 0))) = true.
Proof. exact (conj dft_sane dft_reverts). Qed.

(** C34: the option check accepts an initial step size above the maximum, which is then used. *)
Theorem C34_bounds_refuted : exists (o : roptions) (s s' : rstate b64), check_rprop o = true /\ In (s, s') (rrun o 3 (fz 1)) /\
  flt (maxDelta o) (r_delta (coords s' 0)) = true.
Proof. exact wide_refutes. Qed.
Print Assumptions C34_bounds_refuted.

(** C34: a reverted step is larger than the step size after the iteration, even with sane options. *)
Theorem C34_magnitude_refuted : exists (o : roptions) (s s' : rstate b64), sane o /\ In (s, s') (rrun o 3 (nlit 5 100)) /\
  flt (r_delta (coords s' 0)) (fabs (r_dx (coords s' 0))) = true.
Proof. exact magnitude_refutes. Qed.
Print Assumptions C34_magnitude_refuted.

(** C34: the option check accepts a decrease factor above one: a sign change then enlarges the step size. *)
Theorem C34_shrink_refuted : exists (o : roptions) (s s' : rstate b64), check_rprop o = true /\ In (s, s') (rrun o 3 (nlit 5 100)) /\
  switchYes (coords s 0) (rworld s) = true /\ flt (r_delta (coords s 0)) (r_delta (coords s' 0)) = true.
Proof. exact grows_refutes. Qed.
Print Assumptions C34_shrink_refuted.
