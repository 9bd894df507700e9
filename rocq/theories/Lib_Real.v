(** * Real numbers as a ring, derivatives of finite sums (mathematics only) *)
From Coq Require Import Reals Lra Lia Arith List Ring.
From Verif Require Import Lib_Ring.
Import ListNotations.
Open Scope R_scope.

Definition RRing_theory : ring_theory 0 1 Rplus Rmult Rminus Ropp (@eq R).
Proof. constructor; intros; ring. Qed.
#[global] Instance RRing : CRing R := mkCRing R 0 1 Rplus Rmult Rminus Ropp RRing_theory.

Lemma der_ksum : forall n (f : nat -> R -> R) (f' : nat -> R) x,
  (forall i, (i < n)%nat -> derivable_pt_lim (f i) x (f' i)) ->
  derivable_pt_lim (fun h => ksum n (fun i => f i h)) x (ksum n f').
Proof.
  induction n; intros f f' x H; cbn [ksum].
  - apply derivable_pt_lim_const.
  - apply (derivable_pt_lim_plus (fun h => ksum n (fun i => f i h)) (f n)); [apply IHn; auto | apply H; lia].
Qed.

Lemma der_ext : forall (f g : R -> R) x l, (forall h, f h = g h) -> derivable_pt_lim f x l -> derivable_pt_lim g x l.
Proof.
  intros f g x l E H eps He. destruct (H eps He) as [d Hd]. exists d. intros h H1 H2. rewrite <- !E. auto.
Qed.
Lemma der_eq : forall (f : R -> R) x l l', l = l' -> derivable_pt_lim f x l -> derivable_pt_lim f x l'.
Proof. intros; subst; auto. Qed.

Lemma der_mul : forall f g x f' g', derivable_pt_lim f x f' -> derivable_pt_lim g x g' ->
  derivable_pt_lim (fun h => f h * g h) x (f' * g x + f x * g').
Proof. intros. apply (derivable_pt_lim_mult f g); auto. Qed.
Lemma der_plus : forall f g x f' g', derivable_pt_lim f x f' -> derivable_pt_lim g x g' ->
  derivable_pt_lim (fun h => f h + g h) x (f' + g').
Proof. intros. apply (derivable_pt_lim_plus f g); auto. Qed.
Lemma der_minus : forall f g x f' g', derivable_pt_lim f x f' -> derivable_pt_lim g x g' ->
  derivable_pt_lim (fun h => f h - g h) x (f' - g').
Proof. intros. apply (derivable_pt_lim_minus f g); auto. Qed.
Lemma der_opp : forall f x f', derivable_pt_lim f x f' -> derivable_pt_lim (fun h => - f h) x (- f').
Proof. intros. apply (derivable_pt_lim_opp f); auto. Qed.
Lemma der_scal : forall f x f' a, derivable_pt_lim f x f' -> derivable_pt_lim (fun h => a * f h) x (a * f').
Proof. intros. apply (derivable_pt_lim_scal f); auto. Qed.
Lemma der_scal_r : forall f x f' a, derivable_pt_lim f x f' -> derivable_pt_lim (fun h => f h * a) x (f' * a).
Proof.
  intros. eapply der_ext; [|apply (der_eq _ _ (a * f')); [ring|apply der_scal; exact H]]. intros; cbn; ring.
Qed.
Lemma der_const : forall a x, derivable_pt_lim (fun _ => a) x 0.
Proof. intros. apply derivable_pt_lim_const. Qed.
Lemma der_id : forall x, derivable_pt_lim (fun h => h) x 1.
Proof. intros. apply derivable_pt_lim_id. Qed.
Lemma der_comp : forall g f x f' g', derivable_pt_lim f x f' -> derivable_pt_lim g (f x) g' ->
  derivable_pt_lim (fun h => g (f h)) x (g' * f').
Proof. intros. apply (derivable_pt_lim_comp f g); auto. Qed.
Lemma der_inv : forall f x f', derivable_pt_lim f x f' -> f x <> 0 ->
  derivable_pt_lim (fun h => / f h) x (- f' / (f x * f x)).
Proof.
  intros f x f' H N. 
  pose proof (derivable_pt_lim_div (fun _ => 1) f x 0 f' (der_const 1 x) H N) as D.
  eapply der_ext; [|eapply der_eq; [|exact D]].
  - intros h. unfold div_fct. unfold Rdiv. ring.
  - unfold Rsqr. field. auto.
Qed.
