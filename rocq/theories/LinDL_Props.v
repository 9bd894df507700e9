(** * C82: linear least-squares problems are solved, by the dog-leg policy

    [reach n m A Lam]: |A v|^2 <= Lam |v|^2; [margin], [solver_ok], [opt_ok], [minimal]: as in Lin_Props.v. [solved_by_dog_leg]: see LinDL_Spec.v. [l_pol = None]: a step was not a number. *)
From Coq Require Import Reals List Bool ZArith.
From Verif Require Import Lib_Ring Lib_Real Policy_Model Lin_Model Lin_Spec Lin_Proofs Lin_Toy LinDL_Model LinDL_Spec LinDL_Proofs2 LinDL_Toy.
Open Scope R_scope.

(** every start that is not the minimum already: no step is ever taken back, the cost converges geometrically, and a run that says it converged is near the minimum *)
Theorem C82_dog_leg_partial : forall n m A b mu Lam solver opt s0, margin n m A mu -> reach n m A Lam -> solver_ok n m A solver -> opt_ok opt ->
  forall x xs, minimal n m A b xs -> ~ minimal n m A b x -> solved_by_dog_leg n m A b mu Lam opt solver s0 xs x.
Proof. exact dl_run_min. Qed.
Print Assumptions C82_dog_leg_partial.
Example C82_dog_leg_case : margin 2 3 A3 1 /\ reach 2 3 A3 3 /\ solver_ok 2 3 A3 solver3 /\ opt_ok opt3 /\ minimal 2 3 A3 b3 x3 /\ ~ minimal 2 3 A3 b3 (fun _ => 0).
Proof. exact (conj margin3 (conj reach3 (conj solver3_ok (conj opt3_ok (conj min3 notmin3))))). Qed.

(** there is always such a Lam *)
Theorem C82_reach : forall n m A, exists Lam, reach n m A Lam.
Proof. exact reach_exists. Qed.
Print Assumptions C82_reach.

(** started at the minimum, the policy divides zero by zero and its first step is not a number *)
Theorem C82_dog_leg_refuted : ~ (forall n m A b mu solver opt s0, margin n m A mu -> solver_ok n m A solver -> opt_ok opt -> forall x l, lin_optimize n m A b (dog_leg n m A b solver s0) opt x = Some l -> l_pol _ l <> None).
Proof. exact numbers_refuted. Qed.
Print Assumptions C82_dog_leg_refuted.
