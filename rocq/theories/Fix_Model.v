(** * Fixed-point numbers

    aslam_backend_expressions/include/aslam/backend/FixedPointNumber.hpp ("FP"). Signed Integer types of 1, 2, 4 and 8 bytes; int has 4 bytes; a conversion to a signed type
    that cannot hold the number is taken modulo its range (as gcc does); signed overflow, division by zero and conversions of floating point numbers out of range are UB.
    long double is the x87 format with 64 bits of precision. A number is represented by its numerator _num. *)
From Coq Require Import ZArith Bool.
From Flocq Require Import Core BinarySingleNaN.
From Verif Require Import Lib_Res Lib_Float.
Local Open Scope Z_scope.

(* Integer_: FP L57 *)
Inductive ity : Type := I8 | I16 | I32 | I64.
(* same code: FP L57 *)
Definition bits (t : ity) : Z := match t with I8 => 8 | I16 => 16 | I32 => 32 | I64 => 64 end.
(* same code: FP L57 *)
Definition imin (t : ity) : Z := - 2 ^ (bits t - 1).
(* same code: FP L57 *)
Definition imax (t : ity) : Z := 2 ^ (bits t - 1) - 1.
(* same code: FP L57 *)
Definition fits (t : ity) (z : Z) : bool := (imin t <=? z) && (z <=? imax t).
(* conversion of an integer to type t, as at FP L66-67, L87, L116, L124 *)
Definition cast (t : ity) (z : Z) : Z := let r := z mod 2 ^ bits t in if r <? 2 ^ (bits t - 1) then r else r - 2 ^ bits t.
(* the type in which operands of type t are added, multiplied etc. (integral promotion), as at FP L96, L100, L108, L116, L124 *)
Definition promo (t : ity) : ity := match t with I8 | I16 => I32 | _ => t end.
(* an arithmetic result in type t, as at FP L96, L100, L108, L116, L124 *)
Definition op (t : ity) (z : Z) : res Z := if fits t z then Ok z else UB.
(* same code: FP L96, L100, L108, L116, L124 *)
Definition idiv (t : ity) (x y : Z) : res Z := if y =? 0 then UB else op t (Z.quot x y).

(* long double: FP L52, L89 *)
#[global] Instance prec64 : Prec_gt_0 64 := eq_refl.
#[global] Instance emax16384 : Prec_lt_emax 64 16384 := eq_refl.
(* same code: FP L52, L89 *)
Definition ld := binary_float 64 16384.
(* same code: FP L52, L89 *)
Definition ldz (z : Z) : ld := binary_normalize 64 16384 prec64 emax16384 mode_NE z 0 false.
(* same code: FP L52, L89 *)
Definition ld_mul : ld -> ld -> ld := Bmult mode_NE.
(* same code: FP L52, L89 *)
Definition ld_div : ld -> ld -> ld := Bdiv mode_NE.
(* conversions of long double and double to type t: FP L67, L84 *)
Definition ld_int (t : ity) (x : ld) : res Z := if is_finite x && fits t (Btrunc x) then Ok (Btrunc x) else UB.
(* same code: FP L67, L84 *)
Definition d_int (t : ity) (x : b64) : res Z := if is_finite x && fits t (Btrunc x) then Ok (Btrunc x) else UB.
(* conversion of long double to double: FP L89 *)
Definition ld_double (x : ld) : b64 :=
  match x with B754_zero s => B754_zero s | B754_infinity s => B754_infinity s | B754_nan => B754_nan | B754_finite s m e _ => binary_normalize 53 1024 prec53 emax1024 mode_NE (cond_Zopp s (Zpos m)) e s end.

(* operators -, +, -: FP L95-113 *)
Definition fp_neg (t : ity) (a : Z) : res Z := do z <- op (promo t) (- a); Ok (cast t z).
(* same code: FP L95-113 *)
Definition fp_add (t : ity) (a b : Z) : res Z := do z <- op (promo t) (a + b); Ok (cast t z).
(* same code: FP L95-113 *)
Definition fp_sub (t : ity) (a b : Z) : res Z := do z <- op (promo t) (a - b); Ok (cast t z).
(* NextBiggerType for types below 8 bytes: FP L35-48 *)
Definition next (t : ity) : ity := match t with I8 => I16 | I16 => I32 | _ => I64 end.
(* operator *: FP L115-121; in long double for 8 bytes: FP L52 *)
Definition fp_mul (t : ity) (D a b : Z) : res Z :=
  match t with
  | I64 => ld_int I64 (ld_div (ld_mul (ldz a) (ldz b)) (ldz D))
  | _ => let n := promo (next t) in do p <- op n (cast (next t) a * cast (next t) b); do q <- idiv n p (cast (next t) D); Ok (cast t q)
  end.
(* operator /: FP L123-129 *)
Definition fp_div (t : ity) (D a b : Z) : res Z :=
  match t with
  | I64 => ld_int I64 (ld_div (ld_mul (ldz a) (ldz D)) (ldz b))
  | _ => let n := promo (next t) in do p <- op n (cast (next t) a * cast (next t) D); do q <- idiv n p (cast (next t) b); Ok (cast t q)
  end.
(* operators ==, <, <=: FP L131-148 *)
Definition fp_eq (a b : Z) : bool := a =? b.
(* same code: FP L131-148 *)
Definition fp_lt (a b : Z) : bool := a <? b.
(* same code: FP L131-148 *)
Definition fp_le (a b : Z) : bool := a <=? b.
(* operator double: FP L89 *)
Definition fp_to_double (D a : Z) : b64 := ld_double (ld_div (ldz a) (ldz D)).
(* the constructor from double: FP L84 *)
Definition fp_of_double (t : ity) (D : Z) (x : b64) : res Z := d_int t (fmul x (fz D)).
(* the constructor from another fixed-point type with divider OD, in uintmax_t: FP L86-87 *)
Definition fp_convert (t : ity) (D OD a : Z) : Z := cast t ((((a mod 2 ^ 64) * D) mod 2 ^ 64) / OD).
