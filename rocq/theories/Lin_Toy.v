(** * Linear least-squares problems: a line through three measurements, and the solver by Cramer's rule *)
From Coq Require Import Reals Lra Lia Arith List Bool ZArith.
From Verif Require Import Lib_Ring Lib_Real Policy_Model Policy_Spec Policy_Proofs3 Lin_Model Lin_Spec Lin_Proofs Lin_Proofs2 Lin_Proofs3.
From Verif Require Optimizer2_Model.
Open Scope R_scope.

(* errors x0 - 1, x1 - 2, x0 + x1 - 6: no x makes all of them zero *)
Definition A3 : mat R := fun i j => match i, j with 0%nat, 0%nat => 1 | 1%nat, 1%nat => 1 | 2%nat, 0%nat => 1 | 2%nat, 1%nat => 1 | _, _ => 0 end.
Definition b3 : vec R := fun i => match i with 0%nat => -1 | 1%nat => -2 | _ => -6 end.
Definition solver3 (lam : R) (r : vec R) : option (vec R) :=
  let h := 2 + lam * lam in Some (fun i => match i with 0%nat => (h * r 0%nat - r 1%nat) / (h * h - 1) | 1%nat => (h * r 1%nat - r 0%nat) / (h * h - 1) | _ => 0 end).
Definition opt3 : ropt := mkRopt (1 / 1000) (1 / 1000) 20.
Lemma margin3 : margin 2 3 A3 1.
Proof. split; [lra|]. intros v. unfold vdot, mvmul, A3, ksum. cbn. pose proof (Rle_0_sqr (v 0%nat + v 1%nat)) as S. unfold Rsqr in S. lra. Qed.
Lemma solver3_ok : solver_ok 2 3 A3 solver3.
Proof.
  intros lam r. eexists. split; [reflexivity|]. assert (Sq : 0 <= lam * lam) by (pose proof (Rle_0_sqr lam) as S; exact S). set (l2 := lam * lam) in *. assert (D : (2 + l2) * (2 + l2) - 1 <> 0) by (assert (0 <= l2 * l2) by (apply Rmult_le_pos; auto); lra).
  intros [|[|p]] Hp; [| |lia]; unfold mvmul, mmul, mtr, A3, ksum; cbn; field; exact D.
Qed.
Lemma opt3_ok : opt_ok opt3.
Proof. unfold opt_ok, opt3. cbn. split; [lra|]. split; [lra|lia]. Qed.
(* not solved at the start, and the lowest cost is not zero *)
Lemma far3 : cost 2 3 A3 b3 (fun _ => 0) = 41 /\ cost 2 3 A3 b3 (fun i => match i with 0%nat => 2 | _ => 3 end) = 3.
Proof. unfold cost, err, vadd, vdot, mvmul, ksum, A3, b3. cbn. split; lra. Qed.
Lemma opt1_ok : opt_ok (mkRopt (1 / 1000) (1 / 1000) 1).
Proof. unfold opt_ok; cbn; split; [lra|]; split; [lra|lia]. Qed.
(* the run is at the minimum and says that it was stopped by the limit *)
Lemma silent3 : exists l, lin_optimize 2 3 A3 b3 (gauss_newton 2 3 A3 b3 solver3) (mkRopt (1 / 1000) (1 / 1000) 1) (fun _ => 0) = Some l /\
  minimal 2 3 A3 b3 (l_x _ l) /\ lin_status _ (mkRopt (1 / 1000) (1 / 1000) 1) l = Optimizer2_Model.MAX_ITERATIONS.
Proof.
  destruct (newton_run 2 3 A3 b3 1 _ margin3 opt1_ok _ (gn_newton 2 3 A3 b3 solver3 solver3_ok) (fun _ => 0)) as (l & E & M & _ & I & _).
  exists l. split; auto. split; auto. unfold lin_status. cbn [o_max]. rewrite (proj2 (Z.leb_le 1 _)) by lia. reflexivity.
Qed.
