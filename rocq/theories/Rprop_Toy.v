(** * Runs of Rprop on the gradient x (one coordinate) *)
From Coq Require Import ZArith List Bool.
From Flocq Require Import BinarySingleNaN.
From Verif Require Import Lib_Float Lib_Num Optimizer2_Toy Rprop_Model Rprop_Spec Rprop_Proofs.
Import ListNotations.

Definition never (_ : nat -> b64) : bool := false.
Definition never2 (_ _ : b64) : bool := false.
Definition rrun (o : roptions) (m : nat) (w : b64) : list (rstate b64 * rstate b64) :=
  rprop_loop (fun (x : b64) (_ : nat) => x) (fun x => fmul x x) (fun (x : b64) dx => fadd x (dx 0%nat)) never never never2 o m (rprop_reset o w).

Definition dft (m : rmethod) : roptions := mkRopt (nlit 1 2) (nlit 12 10) (nlit 1 10) (nlit 1 100000000000000000000) (fz 1) m.
Lemma dft_sane : forall m, sane (dft m).
Proof. intros m. unfold sane. repeat split; vm_compute; reflexivity. Qed.

(* initial step size 2, maximum 1 *)
Definition wide : roptions := mkRopt (nlit 1 2) (nlit 12 10) (fz 2) (nlit 1 100000000000000000000) (fz 1) RPROP_PLUS.
(* decrease factor 2 *)
Definition grows : roptions := mkRopt (fz 2) (fz 3) (nlit 1 10) (nlit 1 100000000000000000000) (fz 1) RPROP_MINUS.

Lemma pick : forall (l : list (rstate b64 * rstate b64)) k (p : rstate b64 -> rstate b64 -> bool),
  match nth_error l k with Some (s, s') => p s s' | None => false end = true -> exists s s', In (s, s') l /\ p s s' = true.
Proof.
  intros l k p H. destruct (nth_error l k) as [(s, s')|] eqn:E; [|discriminate]. exists s, s'. split; auto. apply nth_error_In in E. exact E.
Qed.

Lemma dft_reverts : exists s s', In (s, s') (rrun (dft RPROP_PLUS) 3 (nlit 5 100)) /\
  switchYes (coords s 0) (rworld s) = true /\ flt (r_delta (coords s' 0)) (fabs (r_dx (coords s' 0))) = true.
Proof.
  destruct (pick (rrun (dft RPROP_PLUS) 3 (nlit 5 100)) 1
    (fun s s' => switchYes (coords s 0) (rworld s) && flt (r_delta (coords s' 0)) (fabs (r_dx (coords s' 0))))) as (s & s' & I & H).
  { vm_compute. reflexivity. }
  split_and H H1. exact (ex_intro _ s (ex_intro _ s' (conj I (conj H H1)))).
Qed.

Lemma wide_refutes : exists (o : roptions) (s s' : rstate b64), check_rprop o = true /\ In (s, s') (rrun o 3 (fz 1)) /\
  flt (maxDelta o) (r_delta (coords s' 0)) = true.
Proof.
  exists wide. assert (C : check_rprop wide = true) by (vm_compute; reflexivity).
  destruct (pick (rrun wide 3 (fz 1)) 0 (fun s s' => flt (maxDelta wide) (r_delta (coords s' 0)))) as (s & s' & I & H).
  { vm_compute. reflexivity. }
  exact (ex_intro _ s (ex_intro _ s' (conj C (conj I H)))).
Qed.
Lemma magnitude_refutes : exists (o : roptions) (s s' : rstate b64), sane o /\ In (s, s') (rrun o 3 (nlit 5 100)) /\
  flt (r_delta (coords s' 0)) (fabs (r_dx (coords s' 0))) = true.
Proof.
  destruct dft_reverts as (s & s' & I & _ & H). exact (ex_intro _ (dft RPROP_PLUS) (ex_intro _ s (ex_intro _ s' (conj (dft_sane _) (conj I H))))).
Qed.
Lemma grows_refutes : exists (o : roptions) (s s' : rstate b64), check_rprop o = true /\ In (s, s') (rrun o 3 (nlit 5 100)) /\
  switchYes (coords s 0) (rworld s) = true /\ flt (r_delta (coords s 0)) (r_delta (coords s' 0)) = true.
Proof.
  exists grows. assert (C : check_rprop grows = true) by (vm_compute; reflexivity).
  destruct (pick (rrun grows 3 (nlit 5 100)) 1
    (fun s s' => switchYes (coords s 0) (rworld s) && flt (r_delta (coords s 0)) (r_delta (coords s' 0)))) as (s & s' & I & H).
  { vm_compute. reflexivity. }
  split_and H H1. exact (ex_intro _ s (ex_intro _ s' (conj C (conj I (conj H H1))))).
Qed.
