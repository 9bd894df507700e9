(** * The numbers represented *)
From Coq Require Import ZArith Reals Bool.
From Flocq Require Import Core BinarySingleNaN.
From Verif Require Import Lib_Res Lib_Float Fix_Model.
Local Open Scope R_scope.

(* the number with numerator a *)
Definition num (D a : Z) : R := IZR a / IZR D.
(* c is the numerator of x cut off toward zero, and less than one unit away from it *)
Definition truncated (D c : Z) (x : R) : Prop := c = Ztrunc (x * IZR D) /\ Rabs (num D c - x) < / IZR D.
Definition divider_ok (t : ity) (D : Z) : Prop := (0 < D <= imax t)%Z.
(* x is the value of a double *)
Definition is_double (x : R) : Prop := generic_format radix2 (SpecFloat.fexp 53 1024) x.
