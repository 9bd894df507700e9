(** * Specification of a chain-rule stack, independent of the implementation.

    The abstract stack is simply the list of the factors that are in force, the
    most recently pushed first. *)
From Coq Require Import Arith Lia List NArith.
From Verif Require Import Lib_Ring.
Import ListNotations.

Section Spec.
Context {K : Type} {R : CRing K}.

Inductive factor := FMat (r c : nat) (M : mat K) | FScal (a : K).

(** number of columns and entries of the product of the factors (pushed first = leftmost),
    starting from the n x n identity *)
Fixpoint prod_cols (n : nat) (fs : list factor) : nat :=
  match fs with
  | [] => n
  | FMat _ c _ :: _ => c
  | FScal _ :: t => prod_cols n t
  end.
Fixpoint prod_mat (n : nat) (fs : list factor) : mat K :=
  match fs with
  | [] => mid
  | FMat _ _ M :: t => mmul (prod_cols n t) (prod_mat n t) M
  | FScal a :: t => mscale a (prod_mat n t)
  end.

(** an upper bound on the buffer space needed: rows*cols plus padding for each entry *)
Fixpoint space (n al : nat) (fs : list factor) : nat :=
  match fs with
  | [] => 0
  | f :: t => n * prod_cols n (f :: t) + al + space n al t
  end.

(** what a client may do: push a factor whose row count matches and that fits the
    header fields, or pop something *)
Inductive action := APush (f : factor) | APop.

Definition fits (n al : nat) (fs : list factor) : Prop :=
  (N.of_nat (prod_cols n fs) < 65536)%N /\
  (N.of_nat (n * prod_cols n fs) < 2147483648)%N /\
  (N.of_nat (space n al fs) < 4294967296)%N.

Inductive aruns (n al : nat) : list factor -> list action -> list factor -> Prop :=
| ar_nil : forall fs, aruns n al fs [] fs
| ar_push : forall fs f acts fs',
    match f with FMat r _ _ => r = prod_cols n fs | FScal _ => True end ->
    fits n al (f :: fs) ->
    aruns n al (f :: fs) acts fs' ->
    aruns n al fs (APush f :: acts) fs'
| ar_pop : forall f fs acts fs',
    aruns n al fs acts fs' ->
    aruns n al (f :: fs) (APop :: acts) fs'.
End Spec.
