(** * C63: concrete design variables (examples and the refutation) *)
From Coq Require Import Arith Lia List Bool Reals Lra.
From Verif Require Import Lib_Ring Lib_Real Lib_Res Flat_Model Flat_Spec.
Import ListNotations.
Local Open Scope R_scope.

(* a rotation quaternion, a point with scaling 2, a scalar; a direction (a 3 x 3 matrix) *)
Definition fq : fdv R := mkF 3 1 4 1 [0; 0; 0; 1].
Definition fp : fdv R := mkF 3 2 3 1 [1; 2; 3].
Definition fs : fdv R := mkF 1 1 1 1 [5].
Definition fd : fdv R := mkF 2 1 3 3 [1; 0; 0; 0; 1; 0; 0; 0; 1].
Lemma toy_shapes : Forall well_shaped [fd; fq; fp; fs] /\ Forall (fun d => (f_min d <= length (f_par d))%nat) [fd; fq; fp; fs] /\ Forall (fun d => (f_cols d <= 1)%nat) [fq; fp; fs].
Proof. repeat split; repeat constructor. Qed.
Lemma toy_vs : Forall vector_space [fp; fs] /\ all_parameters [fp; fs] <> [] /\ length [1; -1; 3; 4] = list_sum (map f_min [fp; fs]).
Proof. split; [repeat constructor|]. split; [discriminate|reflexivity]. Qed.
Lemma direction_garbage : well_shaped fd /\ (f_min fd <= length (f_par fd))%nat /\ flatten_manager [fd] = Ok [Some 1; Some 0; Some 0; None; None; None; None; None; None] /\ maxDeltaX [fd] [fd] = UB /\
  flatten_utils [fd] [] = Ok (map Some (f_par fd)).
Proof. repeat split; repeat constructor. Qed.
