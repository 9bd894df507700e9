(** * A small concrete environment for Optimizer2: the examples and counterexamples of C21-C23, C26, C28.
    One integer design variable with cost x^2 (NaN at x = -1); the "solver" plays back a script of steps and failures. *)
From Coq Require Import ZArith List Bool.
From Verif Require Import Lib_Res Lib_Float Optimizer2_Model Optimizer2_Spec.
Import ListNotations.
Open Scope Z_scope.

Record toy := mkToy { tv : Z; tsaved : Z; script : list (bool * Z) }.
Definition toy_cost (x : Z) : b64 := if x =? -1 then NaN else fz (x * x).
Definition toy_env (rof : bool) : @env toy Z := mkEnv
  (fun w _ => (toy_cost (tv w), w))
  (fun w _ => w)
  (fun w _ _ d => match script w with
                  | [] => (true, 0, w)
                  | (ok, z) :: t => (ok, z, mkToy (tv w) (tsaved w) t)
                  end)
  (fun _ _ => true)
  (fun w d => (fz (Z.abs d), mkToy (tv w + d) (tv w) (script w)))
  (fun w => mkToy (tsaved w) (tsaved w) (script w))
  (fun _ w => w)
  rof.
Definition toy_opt (n : Z) : options := mkOptions (fl 1 (-10)) (fl 1 (-10)) n.
Definition toy_run (rof : bool) (n x : Z) (s : list (bool * Z)) := optimize (toy_env rof) (toy_opt n) status0 0 (mkToy x 0 s).

Lemma toy_faithful : forall rof, faithful (toy_env rof) tv tsaved toy_cost.
Proof. intros rof. constructor; cbn; auto. intros w J b d. destruct (script w) as [|[]]; reflexivity. Qed.

(** deciding facts about a run by computation *)
From Flocq Require Import BinarySingleNaN.
From Coq Require Import SpecFloat.
Definition sf_eqb (a b : spec_float) : bool :=
  match a, b with
  | S754_zero s, S754_zero t => Bool.eqb s t
  | S754_infinity s, S754_infinity t => Bool.eqb s t
  | S754_nan, S754_nan => true
  | S754_finite s m e, S754_finite t m' e' => Bool.eqb s t && Pos.eqb m m' && (e =? e')
  | _, _ => false
  end.
Definition same (a b : b64) : bool := sf_eqb (B2SF a) (B2SF b).
Lemma same_eq : forall a b, same a b = true -> a = b.
Proof.
  intros a b H. apply B2SF_inj. unfold same in H.
  destruct (B2SF a), (B2SF b); cbn in H; try discriminate; auto.
  - apply eqb_prop in H. congruence.
  - apply eqb_prop in H. congruence.
  - apply andb_true_iff in H as [H H1]. apply andb_true_iff in H as [H H2].
    apply eqb_prop in H. apply Pos.eqb_eq in H2. apply Z.eqb_eq in H1. congruence.
Qed.
Definition op_same (a b : op) : bool :=
  match a, b with
  | OEval x, OEval y => same x y
  | OSolve x, OSolve y => Bool.eqb x y
  | OApply, OApply => true
  | ORevert, ORevert => true
  | _, _ => false
  end.
Fixpoint log_same (a b : list op) : bool :=
  match a, b with
  | [], [] => true
  | x :: s, y :: t => op_same x y && log_same s t
  | _, _ => false
  end.
Lemma log_same_eq : forall a b, log_same a b = true -> a = b.
Proof.
  induction a as [|x a IH]; destruct b as [|y b]; cbn; intros H; try discriminate; auto.
  apply andb_true_iff in H as [H1 H2]. f_equal; auto. destruct x, y; cbn in H1; try discriminate; auto.
  - f_equal. apply same_eq; auto.
  - f_equal. apply eqb_prop; auto.
Qed.
Definition conv_same (a b : convergence) : bool :=
  match a, b with
  | IN_PROGRESS, IN_PROGRESS | FAILURE, FAILURE | GRADIENT_NORM, GRADIENT_NORM | DX, DX | DOBJECTIVE, DOBJECTIVE
  | MAX_ITERATIONS, MAX_ITERATIONS => true
  | _, _ => false
  end.
Lemma conv_same_eq : forall a b, conv_same a b = true -> a = b.
Proof. destruct a, b; cbn; intros; try discriminate; auto. Qed.

Lemma run_check : forall (r : option (res (@loopst toy Z))) (p : @loopst toy Z -> bool),
  match r with Some (Ok l) => p l | _ => false end = true -> exists l, r = Some (Ok l) /\ p l = true.
Proof. intros [[l| |]|] p H; try discriminate. eauto. Qed.

Lemma is_solve_ok : forall o : option op, match o with Some (OSolve true) => true | _ => false end = true -> o = Some (OSolve true).
Proof. intros [[|[]| |]|] H; try discriminate H. reflexivity. Qed.
Ltac split_and H a := let G := fresh in apply andb_true_iff in H; destruct H as [H G]; rename G into a.

Lemma toy_nan : exists l, toy_run true 10 3 [(true, -4)] = Some (Ok l) /\
  JStart (st l) = fz 9 /\ JFinal (st l) = NaN /\ fle (JFinal (st l)) (JStart (st l)) = false /\ tv (world l) = -1 /\
  conv (st l) = IN_PROGRESS /\ iterations (st l) = 1.
Proof.
  destruct (run_check (toy_run true 10 3 [(true, -4)]) (fun l => same (JStart (st l)) (fz 9) && same (JFinal (st l)) NaN &&
    negb (fle (JFinal (st l)) (JStart (st l))) && (tv (world l) =? -1) && conv_same (conv (st l)) IN_PROGRESS && (iterations (st l) =? 1))) as (l & R & H).
  { vm_compute. reflexivity. }
  exists l. split_and H H5. split_and H H4. split_and H H3. split_and H H2. split_and H H1.
  exact (conj R (conj (same_eq _ _ H) (conj (same_eq _ _ H1) (conj (proj1 (negb_true_iff _) H2) (conj (proj1 (Z.eqb_eq _ _) H3) (conj (conv_same_eq _ _ H4) (proj1 (Z.eqb_eq _ _) H5))))))).
Qed.
Lemma toy_mixed : exists l, toy_run true 10 9 [(true, -3); (true, 20); (false, 5); (true, -6)] = Some (Ok l) /\
  JStart (st l) = fz 81 /\ JFinal (st l) = fz 0 /\ rev (log l) =
    [OEval (fz 81); OSolve true; OApply; OEval (fz 36); OSolve true; OApply; OEval (fz 676); ORevert; OSolve false;
     OSolve true; OApply; OEval (fz 0)] ++ concat (repeat [OSolve true; OApply; OEval (fz 0)] 7).
Proof.
  destruct (run_check (toy_run true 10 9 [(true, -3); (true, 20); (false, 5); (true, -6)]) (fun l => same (JStart (st l)) (fz 81) && same (JFinal (st l)) (fz 0) &&
    log_same (rev (log l)) ([OEval (fz 81); OSolve true; OApply; OEval (fz 36); OSolve true; OApply; OEval (fz 676); ORevert; OSolve false;
     OSolve true; OApply; OEval (fz 0)] ++ concat (repeat [OSolve true; OApply; OEval (fz 0)] 7)))) as (l & R & H).
  { vm_compute. reflexivity. }
  exists l. split_and H H2. split_and H H1. exact (conj R (conj (same_eq _ _ H) (conj (same_eq _ _ H1) (log_same_eq _ _ H2)))).
Qed.
Lemma toy_reported : exists l, toy_run true 3 9 [(true, -3); (true, 20); (true, -6)] = Some (Ok l) /\ tv (world l) = 0 /\ JFinal (st l) = toy_cost 0 /\
    failedIterations (st l) = 1.
Proof.
  destruct (run_check (toy_run true 3 9 [(true, -3); (true, 20); (true, -6)]) (fun l => (tv (world l) =? 0) && same (JFinal (st l)) (toy_cost 0) &&
    (failedIterations (st l) =? 1))) as (l & R & H).
  { vm_compute. reflexivity. }
  exists l. split_and H H2. split_and H H1. exact (conj R (conj (proj1 (Z.eqb_eq _ _) H) (conj (same_eq _ _ H1) (proj1 (Z.eqb_eq _ _) H2)))).
Qed.
Lemma toy_again : exists l l', toy_run true 3 9 [(true, -3); (true, 20); (true, -1); (true, -2)] = Some (Ok l) /\
  iterations (st l) = 3 /\ failedIterations (st l) = 1 /\ tv (world l) = 5 /\
  optimize_again (toy_env true) (toy_opt 3) l = Some (Ok l') /\ tv (world l') = 5.
Proof.
  destruct (run_check (toy_run true 3 9 [(true, -3); (true, 20); (true, -1); (true, -2)]) (fun l => (iterations (st l) =? 3) && (failedIterations (st l) =? 1) &&
    (tv (world l) =? 5) && match optimize_again (toy_env true) (toy_opt 3) l with Some (Ok l') => tv (world l') =? 5 | _ => false end)) as (l & R & H).
  { vm_compute. reflexivity. }
  split_and H H3. split_and H H2. split_and H H1.
  destruct (run_check (optimize_again (toy_env true) (toy_opt 3) l) (fun l' => tv (world l') =? 5) H3) as (l' & R' & H').
  exists l, l'. exact (conj R (conj (proj1 (Z.eqb_eq _ _) H) (conj (proj1 (Z.eqb_eq _ _) H1) (conj (proj1 (Z.eqb_eq _ _) H2) (conj R' (proj1 (Z.eqb_eq _ _) H')))))).
Qed.
Lemma toy_flag : exists l, toy_run true 10 3 [(false, 0); (true, -3)] = Some (Ok l) /\
  srvLinearSolverFailure (st l) = true /\ hd_error (filter (fun o => match o with OSolve _ => true | _ => false end) (log l)) = Some (OSolve true) /\
  JFinal (st l) = fz 0 /\ iterations (st l) = 10 /\ conv (st l) = MAX_ITERATIONS.
Proof.
  destruct (run_check (toy_run true 10 3 [(false, 0); (true, -3)]) (fun l => srvLinearSolverFailure (st l) &&
    match hd_error (filter (fun o => match o with OSolve _ => true | _ => false end) (log l)) with Some (OSolve true) => true | _ => false end &&
    same (JFinal (st l)) (fz 0) && (iterations (st l) =? 10) && conv_same (conv (st l)) MAX_ITERATIONS)) as (l & R & H).
  { vm_compute. reflexivity. }
  split_and H H4. split_and H H3. split_and H H2. split_and H H1. exists l.
  assert (hd_error (filter (fun o => match o with OSolve _ => true | _ => false end) (log l)) = Some (OSolve true)) as Q.
  { exact (is_solve_ok _ H1). }
  exact (conj R (conj H (conj Q (conj (same_eq _ _ H2) (conj (proj1 (Z.eqb_eq _ _) H3) (conv_same_eq _ _ H4)))))).
Qed.
Lemma toy_dx : exists l, toy_run true 10 3 [(true, -3)] = Some (Ok l) /\ conv (st l) = DX /\ iterations (st l) = 2.
Proof.
  destruct (run_check (toy_run true 10 3 [(true, -3)]) (fun l => conv_same (conv (st l)) DX && (iterations (st l) =? 2))) as (l & R & H).
  { vm_compute. reflexivity. }
  split_and H H1. exists l. exact (conj R (conj (conv_same_eq _ _ H) (proj1 (Z.eqb_eq _ _) H1))).
Qed.
