(** * Vocabulary of the statements about the flattened parameter vector *)
From Coq Require Import Arith List Reals.
From Verif Require Import Lib_Ring Lib_Res Flat_Model.
Import ListNotations.

Local Open Scope nat_scope.
Section S.
Context {K : Type} {RK : CRing K}.
(* getParameters gives a matrix with as many entries as it has rows times columns *)
Definition well_shaped (d : fdv K) : Prop := length (f_par d) = f_rows d * f_cols d.
(* a vector-space design variable: one column of minimalDimensions entries *)
Definition vector_space (d : fdv K) : Prop := f_cols d = 1 /\ f_rows d = f_min d /\ length (f_par d) = f_min d.
(* all parameters, variable after variable, column after column *)
Definition all_parameters (dvs : list (fdv K)) : list K := concat (map (@f_par K) dvs).
(* entry k of the vector of all parameters belongs to the variable with this scaling *)
Definition all_scalings (dvs : list (fdv K)) : list K := concat (map (fun d => repeat (f_scale d) (f_min d)) dvs).
End S.
