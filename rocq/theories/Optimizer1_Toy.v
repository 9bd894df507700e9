(** * A small concrete environment for Optimizer (v1): examples and counterexamples of C29.
    One integer design variable with cost x^2; the "solver" plays back a script of steps and failures; [tb] is the value at which the
    matrices were built last. *)
From Coq Require Import ZArith List Bool.
From Verif Require Import Lib_Res Lib_Float Optimizer2_Model Optimizer2_Toy Optimizer1_Model Optimizer1_Spec.
Import ListNotations.
Open Scope Z_scope.

Record toy1 := mkToy1 { tx : Z; ts : Z; tscript : list (bool * Z); td : Z; tb : Z; tused : list (Z * Z) }.
Definition toy1_cost (x : Z) : b64 := fz (x * x).
Definition toy1_env : env1 toy1 := mkEnv1
  (fun w => (toy1_cost (tx w), w))
  (fun w => mkToy1 (tx w) (ts w) (tscript w) (td w) (tx w) (tused w))
  (fun _ => [])
  (fun w _ => match tscript w with
              | [] => (true, mkToy1 (tx w) (ts w) [] 0 (tb w) ((tx w, tb w) :: tused w))
              | (ok, z) :: t => (ok, mkToy1 (tx w) (ts w) t z (tb w) ((tx w, tb w) :: tused w))
              end)
  (fun w => (fz (Z.abs (td w)), mkToy1 (tx w + td w) (tx w) (tscript w) (td w) (tb w) (tused w)))
  (fun w => mkToy1 (ts w) (ts w) (tscript w) (td w) (tb w) (tused w))
  (fun _ w => w)
  (fun _ _ => fz 1)
  (fun x _ => x).
Definition toy1_opt (lm : bool) (n : Z) : options1 :=
  mkOptions1 (fl 1 (-10)) (fl 1 (-10)) n (fl 1 (-10)) (fz 3) 2 3 (fz 2) (fz (-1)) lm.
Definition toy1_run (lm : bool) (n x : Z) (s : list (bool * Z)) := optimize1 toy1_env (toy1_opt lm n) f0 (mkToy1 x 0 s 0 0 []).

Lemma toy1_faithful : faithful1 toy1_env tx ts toy1_cost.
Proof. constructor; cbn; auto. intros w x. destruct (tscript w) as [|[]]; auto. Qed.

Lemma run1_check : forall (r : option (res (srv * loop1 toy1))) (p : srv -> loop1 toy1 -> bool),
  match r with Some (Ok (a, l)) => p a l | _ => false end = true -> exists a l, r = Some (Ok (a, l)) /\ p a l = true.
Proof. intros [[[a l]| |]|] p H; try discriminate. eauto. Qed.

(** a failed linear solve after an accepted step undoes the step; the reported cost is that of the state that was left *)
Lemma toy1_failed_solve : exists r l, toy1_run true 2 9 [(true, -3); (false, 0)] = Some (Ok (r, l)) /\
  rev (lgl l) = [OEval (fz 81); OSolve true; OApply; OEval (fz 36); OSolve false; ORevert] /\
  tx (wld l) = 9 /\ rJFinal r = fz 36 /\ flt (rJFinal r) (toy1_cost (tx (wld l))) = true.
Proof.
  destruct (run1_check (toy1_run true 2 9 [(true, -3); (false, 0)])
    (fun r l => log_same (rev (lgl l)) [OEval (fz 81); OSolve true; OApply; OEval (fz 36); OSolve false; ORevert] &&
      (tx (wld l) =? 9) && same (rJFinal r) (fz 36) && flt (rJFinal r) (toy1_cost (tx (wld l))))) as (r & l & R & H).
  { vm_compute. reflexivity. }
  exists r, l. split_and H H3. split_and H H2. split_and H H1.
  exact (conj R (conj (log_same_eq _ _ H) (conj (proj1 (Z.eqb_eq _ _) H1) (conj (same_eq _ _ H2) H3)))).
Qed.

(** the last step was undone: its cost is reported although the design variables are at the better state *)
Lemma toy1_rejected_reported : exists r l, toy1_run true 2 9 [(true, -3); (true, 20)] = Some (Ok (r, l)) /\
  rev (lgl l) = [OEval (fz 81); OSolve true; OApply; OEval (fz 36); OSolve true; OApply; OEval (fz 676); ORevert] /\
  tx (wld l) = 6 /\ rJFinal r = fz 676 /\ flt (rJStart r) (rJFinal r) = true.
Proof.
  destruct (run1_check (toy1_run true 2 9 [(true, -3); (true, 20)])
    (fun r l => log_same (rev (lgl l)) [OEval (fz 81); OSolve true; OApply; OEval (fz 36); OSolve true; OApply; OEval (fz 676); ORevert] &&
      (tx (wld l) =? 6) && same (rJFinal r) (fz 676) && flt (rJStart r) (rJFinal r))) as (r & l & R & H).
  { vm_compute. reflexivity. }
  exists r, l. split_and H H3. split_and H H2. split_and H H1.
  exact (conj R (conj (log_same_eq _ _ H) (conj (proj1 (Z.eqb_eq _ _) H1) (conj (same_eq _ _ H2) H3)))).
Qed.

(** without damping, after one failed solve the linear system is never rebuilt: at 5 the solver still gets the system of the value 9 *)
Definition zz_same (a b : list (Z * Z)) : bool :=
  (length a =? length b)%nat && forallb (fun p => (fst (fst p) =? fst (snd p)) && (snd (fst p) =? snd (snd p))) (combine a b).
Lemma zz_same_eq : forall a b, zz_same a b = true -> a = b.
Proof.
  unfold zz_same. induction a as [|[x y] a IH]; destruct b as [|[x' y'] b]; cbn; intros H; try discriminate; auto.
  apply andb_true_iff in H as [H1 H2]. apply andb_true_iff in H2 as [H2 H3]. apply andb_true_iff in H2 as [H2 H4].
  apply Z.eqb_eq in H2, H4. subst. f_equal. apply IH. rewrite H1, H3. reflexivity.
Qed.
Lemma toy1_stale : exists r l, toy1_run false 4 9 [(false, 0); (true, 5); (true, -3); (true, -1)] = Some (Ok (r, l)) /\
  rev (tused (wld l)) = [(9, 9); (0, 9); (5, 9); (2, 9)] /\ tx (wld l) = 1.
Proof.
  destruct (run1_check (toy1_run false 4 9 [(false, 0); (true, 5); (true, -3); (true, -1)])
    (fun r l => zz_same (rev (tused (wld l))) [(9, 9); (0, 9); (5, 9); (2, 9)] && (tx (wld l) =? 1))) as (r & l & R & H).
  { vm_compute. reflexivity. }
  exists r, l. split_and H H1. exact (conj R (conj (zz_same_eq _ _ H) (proj1 (Z.eqb_eq _ _) H1))).
Qed.

(** without damping a step that raises the cost is kept *)
Lemma toy1_gn_worse : exists r l, toy1_run false 1 2 [(true, 5)] = Some (Ok (r, l)) /\
  tx (wld l) = 7 /\ rJStart r = fz 4 /\ rJFinal r = fz 49.
Proof.
  destruct (run1_check (toy1_run false 1 2 [(true, 5)])
    (fun r l => (tx (wld l) =? 7) && same (rJStart r) (fz 4) && same (rJFinal r) (fz 49))) as (r & l & R & H).
  { vm_compute. reflexivity. }
  exists r, l. split_and H H2. split_and H H1. exact (conj R (conj (proj1 (Z.eqb_eq _ _) H) (conj (same_eq _ _ H1) (same_eq _ _ H2)))).
Qed.

(** a regular run: kept, undone, kept *)
Lemma toy1_regular : exists r l, toy1_run true 3 9 [(true, -3); (true, 20); (true, -6)] = Some (Ok (r, l)) /\
  rev (lgl l) = OEval (rJStart r) :: flat_map actions1 [Kept (fz 36) (fz 1); Undone (fz 676) (fz 1); Kept (fz 0) (fz 1)] /\
  tx (wld l) = 0 /\ rJFinal r = fz 0 /\ rJStart r = fz 81.
Proof.
  destruct (run1_check (toy1_run true 3 9 [(true, -3); (true, 20); (true, -6)])
    (fun r l => log_same (rev (lgl l)) (OEval (rJStart r) :: flat_map actions1 [Kept (fz 36) (fz 1); Undone (fz 676) (fz 1); Kept (fz 0) (fz 1)]) &&
      (tx (wld l) =? 0) && same (rJFinal r) (fz 0) && same (rJStart r) (fz 81))) as (r & l & R & H).
  { vm_compute. reflexivity. }
  exists r, l. split_and H H3. split_and H H2. split_and H H1.
  exact (conj R (conj (log_same_eq _ _ H) (conj (proj1 (Z.eqb_eq _ _) H1) (conj (same_eq _ _ H2) (same_eq _ _ H3))))).
Qed.
Lemma toy1_regular_hyp : regular (fz 81) [Kept (fz 36) (fz 1); Undone (fz 676) (fz 1); Kept (fz 0) (fz 1)].
Proof. split; [reflexivity|]. intros x [<-|[<-|[<-|[]]]]; exact (conj eq_refl (conj eq_refl eq_refl)). Qed.

(** setInitialLambda with two scalar blocks reads outside the second one *)
Lemma lambda_oob : setInitialLambda (mkOptions1 f0 f0 1 f0 (fz 3) 2 3 (fz 2) (fz 1) true)
   [Some (1, fun _ _ => fz 1); Some (1, fun _ _ => fz 2)] f0 = UB.
Proof. vm_compute. reflexivity. Qed.
(** and with one 2x2 block it may return an entry that is not on the diagonal *)
Lemma lambda_wrong_entry : exists x, setInitialLambda (mkOptions1 f0 f0 1 f0 (fz 3) 2 3 (fz 2) (fz 1) true)
   [Some (2, fun i j => if i =? j then fz (5 + i) else fz 0)] f0 = Ok x /\ x = f0.
Proof. eexists. split; [vm_compute; reflexivity|]. reflexivity. Qed.
