(** * Outcomes of modelled operations.

    Models of C++ functions return [Ok v] (normal return), [Throw] (a C++ exception is
    thrown) or [UB] (undefined behaviour in C++: out-of-bounds access, signed
    overflow, division by zero, use after free, ...). *)
From Coq Require Import Arith Lia List.
Import ListNotations.

Inductive res (A : Type) : Type := Ok (a : A) | Throw | UB.
Arguments Ok {A} a. Arguments Throw {A}. Arguments UB {A}.

Definition bind {A B} (x : res A) (f : A -> res B) : res B :=
  match x with Ok a => f a | Throw => Throw | UB => UB end.
Notation "'do' x <- e ; f" := (bind e (fun x => f)) (at level 200, x name, e at level 100, f at level 200).

(** list update; no effect when the position is out of range *)
Fixpoint upd {A} (l : list A) (p : nat) (v : A) : list A :=
  match l, p with
  | [], _ => []
  | _ :: t, O => v :: t
  | x :: t, S q => x :: upd t q v
  end.

Lemma upd_length : forall A (l : list A) p v, length (upd l p v) = length l.
Proof. induction l; destruct p; simpl; intros; auto. Qed.
Lemma nth_upd_same : forall A (l : list A) p v d, p < length l -> nth p (upd l p v) d = v.
Proof. induction l; destruct p; simpl; intros; auto; try lia. apply IHl; lia. Qed.
Lemma nth_upd_other : forall A (l : list A) p q v d, p <> q -> nth q (upd l p v) d = nth q l d.
Proof. induction l; destruct p, q; simpl; intros; auto; try lia. Qed.
Lemma nth_error_upd_same : forall A (l : list A) p v, p < length l -> nth_error (upd l p v) p = Some v.
Proof. induction l; destruct p; simpl; intros; auto; try lia. apply IHl; lia. Qed.
Lemma nth_error_upd_other : forall A (l : list A) p q v, p <> q -> nth_error (upd l p v) q = nth_error l q.
Proof. induction l; destruct p, q; simpl; intros; auto; try lia. Qed.
Lemma nth_upd : forall A (l : list A) p q v d, p < length l ->
  nth q (upd l p v) d = if Nat.eqb p q then v else nth q l d.
Proof.
  intros. destruct (Nat.eqb_spec p q); [subst; apply nth_upd_same|apply nth_upd_other]; auto.
Qed.
