From Coq Require Import Arith Lia List ZArith NArith Bool Reals Lra.
From Verif Require Import Lib_Ring Lib_Real Lib_Res SBM_Model SBM_Spec SBM_Proofs SBM_Proofs2 LinSolve_Model LinSolve_Spec LinSolve_Proofs LinSolve_Proofs2 Gain_Spec.
Import ListNotations.
Local Open Scope R_scope.

Ltac kr := cbn [kadd kmul ksub kopp k0 k1 RRing].

(** ** rows *)
Lemma ksumR_add : forall n (f g : nat -> R), ksum n (fun i => f i + g i) = ksum n f + ksum n g.
Proof. intros. exact (@ksum_add R RRing n f g). Qed.
Lemma ksumR_mul : forall n a (f : nat -> R), ksum n (fun i => a * f i) = a * ksum n f.
Proof. intros. exact (@ksum_mul_l R RRing n a f). Qed.
Lemma ksumR_swap : forall n m (f : nat -> nat -> R), ksum n (fun i => ksum m (f i)) = ksum m (fun j => ksum n (fun i => f i j)).
Proof. intros. exact (@ksum_swap R RRing n m f). Qed.
Lemma ksumR_nonneg : forall n (f : nat -> R), (forall i, (i < n)%nat -> 0 <= f i) -> 0 <= ksum n f.
Proof. intros n f. induction n as [|n IH]; intros H; cbn [ksum]; [kr; lra|]. assert (0 <= f n) by (apply H; lia). assert (0 <= ksum n f) by (apply IH; intros; apply H; lia). kr. lra. Qed.
Lemma ksumR_zero : forall n (f : nat -> R), (forall i, (i < n)%nat -> 0 <= f i) -> ksum n f = 0 -> forall i, (i < n)%nat -> f i = 0.
Proof.
  intros n f. induction n as [|n IH]; intros H E i Hi; [lia|]. cbn [ksum] in E. revert E. kr. intros E. assert (0 <= f n) by (apply H; lia). assert (0 <= ksum n f) by (apply ksumR_nonneg; intros; apply H; lia).
  destruct (Nat.eq_dec i n) as [->|N]; [lra|]. apply IH; [intros; apply H; lia|lra|lia].
Qed.

Section Rows.
  Variables (rows n : nat) (J : mat R) (e c x : vec R).
  Hypothesis NE : normal_equations rows n J e c x.
  Definition Jm (y : vec R) : vec R := mvmul n J y.
  Definition NN (y z : vec R) : R := ksum rows (fun r => Jm y r * Jm z r) + ksum n (fun p => (c p * y p) * (c p * z p)).
  Definition GG (z : vec R) : R := ksum rows (fun r => e r * Jm z r).
  Definition rcost (y : vec R) : R := ksum rows (fun r => (e r + Jm y r) * (e r + Jm y r)) + ksum n (fun p => (c p * y p) * (c p * y p)).
  Lemma swap_J : forall (w z : vec R), ksum n (fun p => z p * ksum rows (fun r => J r p * w r)) = ksum rows (fun r => w r * Jm z r).
  Proof.
    intros w z. rewrite (ksum_ext n _ (fun p => ksum rows (fun r => w r * (J r p * z p)))) by (intros p Hp; rewrite <- ksumR_mul; apply ksum_ext; intros; kr; ring).
    rewrite ksumR_swap. apply ksum_ext. intros r Hr. unfold Jm, mvmul. rewrite <- ksumR_mul. apply ksum_ext. intros. kr. ring.
  Qed.
  Lemma dn : forall p, (p < n)%nat -> mvmul n (damped_normal rows J c) x p = ksum rows (fun r => J r p * Jm x r) + c p * (c p * x p).
  Proof.
    intros p Hp. unfold mvmul at 1, damped_normal. transitivity (ksum n (fun q => ksum rows (fun r => J r p * (J r q * x q)) + delta p q * (c p * (c p * x q)))).
    - apply ksum_ext. intros q Hq. kr. transitivity (mmul rows (mtr J) J p q * x q + delta p q * (c p * (c p * x q))); [ring|]. f_equal. unfold mmul, mtr. rewrite Rmult_comm, <- ksumR_mul. apply ksum_ext. intros. kr. ring.
    - rewrite ksumR_add. f_equal; [|exact (@ksum_delta_l R RRing n p (fun q => c p * (c p * x q)) Hp)]. rewrite ksumR_swap. apply ksum_ext. intros r Hr. unfold Jm, mvmul. rewrite <- ksumR_mul. reflexivity.
  Qed.
  Lemma ne_all : forall z, NN x z + GG z = 0.
  Proof.
    intros z. assert (A : ksum n (fun p => z p * (mvmul n (damped_normal rows J c) x p + mvmul rows (mtr J) e p)) = 0).
    { transitivity (ksum n (fun _ : nat => 0)); [|clear; induction n as [|m IH]; cbn [ksum]; [reflexivity|rewrite IH; kr; ring]]. apply ksum_ext. intros p Hp. rewrite (NE p Hp). kr. ring. }
    rewrite (ksum_ext n _ (fun p => z p * ksum rows (fun r => J r p * Jm x r) + ((c p * x p) * (c p * z p) + z p * ksum rows (fun r => J r p * e r)))) in A.
    2:{ intros p Hp. rewrite dn by auto. unfold mvmul, mtr. kr. ring. }
    rewrite !ksumR_add, !swap_J in A. unfold NN, GG. lra.
  Qed.
  Lemma Jm_add : forall y z r, Jm (fun p => y p + z p) r = Jm y r + Jm z r.
  Proof. intros. unfold Jm, mvmul. rewrite <- ksumR_add. apply ksum_ext. intros. kr. ring. Qed.
  Lemma rcost_split : forall d, rcost (fun p => x p + d p) = rcost x + NN d d.
  Proof.
    intros d. assert (Z := ne_all d). unfold rcost, NN, GG in *.
    rewrite (ksum_ext rows (fun r => (e r + Jm (fun p => x p + d p) r) * (e r + Jm (fun p => x p + d p) r))
      (fun r => (e r + Jm x r) * (e r + Jm x r) + (Jm d r * Jm d r + (2 * (Jm x r * Jm d r) + 2 * (e r * Jm d r))))) by (intros r Hr; rewrite Jm_add; ring).
    rewrite (ksum_ext n (fun p => c p * (x p + d p) * (c p * (x p + d p))) (fun p => c p * x p * (c p * x p) + (c p * d p * (c p * d p) + 2 * (c p * x p * (c p * d p))))) by (intros; ring).
    rewrite !ksumR_add, !ksumR_mul. lra.
  Qed.
  Lemma NN_nonneg : forall d, 0 <= NN d d.
  Proof. intros d. unfold NN. assert (0 <= ksum rows (fun r => Jm d r * Jm d r)) by (apply ksumR_nonneg; intros; nra). assert (0 <= ksum n (fun p => c p * d p * (c p * d p))) by (apply ksumR_nonneg; intros; nra). lra. Qed.
  Lemma NN_zero : forall d, NN d d = 0 -> (forall r, (r < rows)%nat -> Jm d r = 0) /\ (forall p, (p < n)%nat -> c p * d p = 0).
  Proof.
    intros d E. unfold NN in E. assert (A : 0 <= ksum rows (fun r => Jm d r * Jm d r)) by (apply ksumR_nonneg; intros; nra). assert (B : 0 <= ksum n (fun p => c p * d p * (c p * d p))) by (apply ksumR_nonneg; intros; nra). split.
    - intros r Hr. assert (Q := ksumR_zero rows (fun r => Jm d r * Jm d r) ltac:(intros; nra) ltac:(lra) r Hr). cbn in Q. nra.
    - intros p Hp. assert (Q := ksumR_zero n (fun p => c p * d p * (c p * d p)) ltac:(intros; nra) ltac:(lra) p Hp). cbn in Q. nra.
  Qed.
  Lemma zeroR : forall m (f : nat -> R), (forall i, (i < m)%nat -> f i = 0) -> ksum m f = 0.
  Proof. intros m f. induction m as [|m IH]; intros H; cbn [ksum]; [reflexivity|]. rewrite IH, H by (intros; try apply H; lia). kr. ring. Qed.
  Lemma NN_x0 : NN x x = 0 -> forall z, GG z = 0.
  Proof.
    intros E z. destruct (NN_zero x E) as (A & B). assert (Z := ne_all z). unfold NN in Z. rewrite (zeroR rows), (zeroR n) in Z; [lra| |]; intros i Hi; [rewrite B by auto|rewrite A by auto]; ring.
  Qed.
End Rows.
