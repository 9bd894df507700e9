(** * Ownership: what is stated *)
From Coq Require Import Arith List Bool Sorting.Permutation.
From Verif Require Import Own_Model.
Import ListNotations.

(* the object behind a pointer, if there is one *)
Definition handed (p : ptr) (k : kind) : list (nat * kind) := match p with Some i => [(i, k)] | None => [] end.
(* what a solver owns between calls: its factor and the workspace in its cholmod_common *)
Definition own (k : kind) (w : world) : list (nat * kind) := handed (factor w) k ++ handed (work w) KWork.
(* exactly that is allocated, and the objects in the list besides *)
Definition tidy_but (k : kind) (lost : list (nat * kind)) (w : world) : Prop := Permutation (live w) (own k w ++ lost).
Definition tidy (k : kind) (w : world) : Prop := tidy_but k [] w.

(* what the libraries promise: a function that is to hand out an object returns null exactly when it reports a problem *)
Definition promise (orc : call -> nat -> ans) : Prop := forall c n, an_null (orc c n) = true <-> an_stat (orc c n) <> SOk.
(* calls of a function that hand out an object never fail *)
Definition gives (orc : call -> nat -> ans) (c : call) : Prop := forall n, an_null (orc c n) = false.
(* calls that return an int never fail *)
Definition works (orc : call -> nat -> ans) (c : call) : Prop := forall n, an_ret (orc c n) = true /\ an_stat (orc c n) = SOk.
