(** * C56: fixed-point numbers *)
From Coq Require Import ZArith Reals Bool.
From Flocq Require Import Core BinarySingleNaN.
From Verif Require Import Lib_Res Lib_Float Fix_Model Fix_Spec Fix_Proofs Fix_Float Fix_Toy.
Local Open Scope R_scope.

(** C56. Sums, differences and negatives that are in range are exact. *)
Theorem C56_add : forall t D a b, fits t (a + b) = true -> exists c, fp_add t a b = Ok c /\ num D c = num D a + num D b.
Proof. exact add_ok. Qed.
Print Assumptions C56_add.
Example C56_add_ex : fits I8 (100 + -127) = true /\ fp_add I8 100 (-127) = Ok (-27)%Z.
Proof. split; reflexivity. Qed.
Theorem C56_sub : forall t D a b, fits t (a - b) = true -> exists c, fp_sub t a b = Ok c /\ num D c = num D a - num D b.
Proof. exact sub_ok. Qed.
Print Assumptions C56_sub.
Example C56_sub_ex : fits I32 (-2147483640 - 8) = true.
Proof. reflexivity. Qed.
Theorem C56_neg : forall t D a, fits t (- a) = true -> exists c, fp_neg t a = Ok c /\ num D c = - num D a.
Proof. exact neg_ok. Qed.
Print Assumptions C56_neg.
Example C56_neg_ex : fits I16 (- -32767) = true.
Proof. reflexivity. Qed.

(** The comparison operators compare the numbers. *)
Theorem C56_compare : forall D a b, (0 < D)%Z -> (fp_eq a b = true <-> num D a = num D b) /\ (fp_lt a b = true <-> num D a < num D b) /\ (fp_le a b = true <-> num D a <= num D b).
Proof. exact compare_ok. Qed.
Print Assumptions C56_compare.
Example C56_compare_ex : (0 < 1000)%Z /\ fp_lt (-3) 2 = true.
Proof. split; reflexivity. Qed.

(** Products and quotients of 1-, 2- and 4-byte numbers are the exact result cut off toward zero. *)
Theorem C56_mul : forall t D a b, t <> I64 -> divider_ok t D -> fits t a = true -> fits t b = true -> fits t (Ztrunc (num D a * num D b * IZR D)) = true ->
  exists c, fp_mul t D a b = Ok c /\ truncated D c (num D a * num D b).
Proof. exact mul_ok. Qed.
Print Assumptions C56_mul.
Example C56_mul_ex : I16 <> I64 /\ divider_ok I16 1000 /\ fits I16 1234 = true /\ fits I16 55 = true /\ fits I16 (Ztrunc (num 1000 1234 * num 1000 55 * IZR 1000)) = true.
Proof. exact mul_hyps. Qed.
Example C56_mul_runs : fp_mul I16 1000 1234 55 = Ok 67%Z /\ fp_div I16 1000 (-1234) 55 = Ok (-22436)%Z /\ fp_mul I64 1000000000 3000000000 (-1500000000) = Ok (-4500000000)%Z.
Proof. exact mul_runs. Qed.
Theorem C56_div : forall t D a b, t <> I64 -> divider_ok t D -> fits t a = true -> fits t b = true -> b <> 0%Z -> fits t (Ztrunc (num D a / num D b * IZR D)) = true ->
  exists c, fp_div t D a b = Ok c /\ truncated D c (num D a / num D b).
Proof. exact div_ok. Qed.
Print Assumptions C56_div.
Example C56_div_ex : I16 <> I64 /\ divider_ok I16 1000 /\ fits I16 (-1234) = true /\ fits I16 55 = true /\ 55%Z <> 0%Z /\ fits I16 (Ztrunc (num 1000 (-1234) / num 1000 55 * IZR 1000)) = true.
Proof. exact div_hyps. Qed.

(** 8-byte numbers are multiplied in long double. The result is the exact result cut off toward zero if the product of the numerators is below 2^64.
    Missing: larger products, which have an error below two units only, and may be rounded up instead of cut off. *)
Theorem C56_mul_long_partial : forall D a b, divider_ok I64 D -> fits I64 a = true -> fits I64 b = true -> (Z.abs (a * b) < 2 ^ 64)%Z -> fits I64 (Ztrunc (num D a * num D b * IZR D)) = true ->
  exists c, fp_mul I64 D a b = Ok c /\ truncated D c (num D a * num D b).
Proof. exact mul64_exact. Qed.
Print Assumptions C56_mul_long_partial.
Example C56_mul_long_ex : divider_ok I64 1000000000 /\ fits I64 3000000000 = true /\ fits I64 (-1500000000) = true /\ (Z.abs (3000000000 * -1500000000) < 2 ^ 64)%Z /\
  fits I64 (Ztrunc (num 1000000000 3000000000 * num 1000000000 (-1500000000) * IZR 1000000000)) = true.
Proof. exact mul64_hyps. Qed.
Theorem C56_div_long_partial : forall D a b, divider_ok I64 D -> fits I64 a = true -> fits I64 b = true -> b <> 0%Z -> (Z.abs (a * D) < 2 ^ 64)%Z -> fits I64 (Ztrunc (num D a / num D b * IZR D)) = true ->
  exists c, fp_div I64 D a b = Ok c /\ truncated D c (num D a / num D b).
Proof. exact div64_exact. Qed.
Print Assumptions C56_div_long_partial.
Example C56_div_long_ex : divider_ok I64 1000000000 /\ fits I64 3000000000 = true /\ fits I64 (-1500000000) = true /\ (-1500000000)%Z <> 0%Z /\ (Z.abs (3000000000 * 1000000000) < 2 ^ 64)%Z /\
  fits I64 (Ztrunc (num 1000000000 3000000000 / num 1000000000 (-1500000000) * IZR 1000000000)) = true.
Proof. exact div64_hyps. Qed.
Theorem C56_mul_long_error_partial : forall D a b, divider_ok I64 D -> fits I64 a = true -> fits I64 b = true -> Rabs (num D a * num D b * IZR D) <= IZR (2 ^ 62) ->
  exists c, fp_mul I64 D a b = Ok c /\ Rabs (num D c - num D a * num D b) < 2 / IZR D.
Proof. exact mul64_near. Qed.
Print Assumptions C56_mul_long_error_partial.
Theorem C56_div_long_error_partial : forall D a b, divider_ok I64 D -> fits I64 a = true -> fits I64 b = true -> b <> 0%Z -> Rabs (num D a / num D b * IZR D) <= IZR (2 ^ 62) ->
  exists c, fp_div I64 D a b = Ok c /\ Rabs (num D c - num D a / num D b) < 2 / IZR D.
Proof. exact div64_near. Qed.
Print Assumptions C56_div_long_error_partial.
Example C56_long_error_ex : divider_ok I64 1000000000 /\ fits I64 big_a = true /\ fits I64 16384 = true /\ Rabs (num 1000000000 big_a * num 1000000000 16384 * IZR 1000000000) <= IZR (2 ^ 62) /\
  Rabs (num 1000000000 big_a / num 1000000000 2000000000 * IZR 1000000000) <= IZR (2 ^ 62).
Proof. exact near_hyps. Qed.
(** 4611686018.426574707 * 0.000016384 is rounded up. *)
Theorem C56_mul_long_refuted : fp_mul I64 1000000000 big_a 16384 = Ok 75557863725901%Z /\ Ztrunc (num 1000000000 big_a * num 1000000000 16384 * IZR 1000000000) = 75557863725900%Z.
Proof. exact not_cut. Qed.
Print Assumptions C56_mul_long_refuted.

(** A product or quotient that does not fit: undefined behaviour for 8-byte numbers, zero for 65536 * 65536 in 4-byte numbers. *)
Theorem C56_overflow_refuted : (fits I64 (2 ^ 62) = true /\ fits I32 65536 = true /\ fp_mul I64 1 (2 ^ 62) 4 = UB /\ fp_div I64 4 (2 ^ 62) 1 = UB /\
  fp_mul I32 1 65536 65536 = Ok 0 /\ fp_div I32 65536 65536 1 = Ok 0)%Z.
Proof. exact out_of_range. Qed.
Print Assumptions C56_overflow_refuted.

(** Conversion to another divider: the number cut off toward zero, the same number if the new type has it. Missing: negative numbers. *)
Theorem C56_convert_partial : forall t D OD a, (0 < OD)%Z -> (0 <= a)%Z -> (0 < D)%Z -> (a * D < 2 ^ 64)%Z -> fits t (Ztrunc (num OD a * IZR D)) = true ->
  truncated D (fp_convert t D OD a) (num OD a) /\ (forall c, num D c = num OD a -> fp_convert t D OD a = c).
Proof. exact convert_value. Qed.
Print Assumptions C56_convert_partial.
Example C56_convert_ex : (0 < 1000)%Z /\ (0 <= 1250)%Z /\ (0 <= 16)%Z /\ (1250 * 16 < 2 ^ 64)%Z /\ fits I8 (Ztrunc (num 1000 1250 * IZR 16)) = true.
Proof. exact convert_hyps. Qed.
(** -0.1 converted to a type with the same divider 10 becomes -171798692. *)
Theorem C56_convert_negative_refuted : fp_convert I32 10 10 (-1) = (-1717986920)%Z.
Proof. exact convert_neg. Qed.
Print Assumptions C56_convert_negative_refuted.

(** A number that a double can represent is the same after the conversion to double and back, if its numerator is below 2^53. *)
Theorem C56_double_partial : forall t D n, (0 < D < 2 ^ 53)%Z -> fits t n = true -> (Z.abs n < 2 ^ 53)%Z -> is_double (num D n) -> fp_of_double t D (fp_to_double D n) = Ok n.
Proof. exact double_exact. Qed.
Print Assumptions C56_double_partial.
Example C56_double_ex : (0 < 1000 < 2 ^ 53)%Z /\ fits I16 (-1375) = true /\ (Z.abs (-1375) < 2 ^ 53)%Z /\ is_double (num 1000 (-1375)).
Proof. exact double_hyps. Qed.
Theorem C56_double_refuted : is_double (num 3 27021597764222973) /\ fits I64 27021597764222973 = true /\ fp_of_double I64 3 (fp_to_double 3 27021597764222973) = Ok 27021597764222972%Z.
Proof. exact double_wrong. Qed.
Print Assumptions C56_double_refuted.

(** Numbers that a double cannot represent lose at most one unit, and 0.29 does. *)
Theorem C56_double_unit : forall t D n, (0 < D < 2 ^ 53)%Z -> fits t n = true -> (Z.abs n <= 2 ^ 51)%Z -> exists m, fp_of_double t D (fp_to_double D n) = Ok m /\ Rabs (num D m - num D n) <= / IZR D /\ (Z.abs m <= Z.abs n)%Z.
Proof. exact double_near. Qed.
Print Assumptions C56_double_unit.
Example C56_double_unit_ex : fp_of_double I8 100 (fp_to_double 100 29) = Ok 28%Z.
Proof. exact double_lost. Qed.
