(** * Concrete numbers *)
From Coq Require Import ZArith Reals Lra Lia Bool.
From Flocq Require Import Core BinarySingleNaN.
From Verif Require Import Lib_Res Lib_Float Fix_Model Fix_Spec Fix_Proofs.
Local Open Scope Z_scope.

(* 1.234 * 0.055 and -1.234 / 0.055 as short with divider 1000 *)
Lemma mul_hyps : I16 <> I64 /\ divider_ok I16 1000 /\ fits I16 1234 = true /\ fits I16 55 = true /\ fits I16 (Ztrunc (num 1000 1234 * num 1000 55 * IZR 1000)) = true.
Proof. split; [discriminate|]. split; [split; reflexivity || discriminate|]. split; [reflexivity|]. split; [reflexivity|]. rewrite mul_num, Ztrunc_div by lia. reflexivity. Qed.
Lemma div_hyps : I16 <> I64 /\ divider_ok I16 1000 /\ fits I16 (-1234) = true /\ fits I16 55 = true /\ 55 <> 0 /\ fits I16 (Ztrunc (num 1000 (-1234) / num 1000 55 * IZR 1000)) = true.
Proof. split; [discriminate|]. split; [split; reflexivity || discriminate|]. split; [reflexivity|]. split; [reflexivity|]. split; [lia|]. rewrite div_num, Ztrunc_div by lia. reflexivity. Qed.
Lemma mul_runs : fp_mul I16 1000 1234 55 = Ok 67 /\ fp_div I16 1000 (-1234) 55 = Ok (-22436) /\ fp_mul I64 1000000000 3000000000 (-1500000000) = Ok (-4500000000).
Proof. vm_compute. auto. Qed.
Lemma mul64_hyps : divider_ok I64 1000000000 /\ fits I64 3000000000 = true /\ fits I64 (-1500000000) = true /\ Z.abs (3000000000 * -1500000000) < 2 ^ 64 /\ fits I64 (Ztrunc (num 1000000000 3000000000 * num 1000000000 (-1500000000) * IZR 1000000000)) = true.
Proof. split; [split; reflexivity || discriminate|]. split; [reflexivity|]. split; [reflexivity|]. split; [reflexivity|]. rewrite mul_num, Ztrunc_div by lia. reflexivity. Qed.
Lemma div64_hyps : divider_ok I64 1000000000 /\ fits I64 3000000000 = true /\ fits I64 (-1500000000) = true /\ -1500000000 <> 0 /\ Z.abs (3000000000 * 1000000000) < 2 ^ 64 /\ fits I64 (Ztrunc (num 1000000000 3000000000 / num 1000000000 (-1500000000) * IZR 1000000000)) = true.
Proof. split; [split; reflexivity || discriminate|]. split; [reflexivity|]. split; [reflexivity|]. split; [lia|]. split; [reflexivity|]. rewrite div_num, Ztrunc_div by lia. reflexivity. Qed.
(* a product that is not cut off: 4611686018.426574707 * 0.000016384 *)
Definition big_a : Z := 4611686018426574707.
Lemma near_hyps : divider_ok I64 1000000000 /\ fits I64 big_a = true /\ fits I64 16384 = true /\ (Rabs (num 1000000000 big_a * num 1000000000 16384 * IZR 1000000000) <= IZR (2 ^ 62))%R /\ (Rabs (num 1000000000 big_a / num 1000000000 2000000000 * IZR 1000000000) <= IZR (2 ^ 62))%R.
Proof.
  split; [split; reflexivity || discriminate|]. split; [reflexivity|]. split; [reflexivity|]. unfold big_a, num. change (2 ^ 62) with 4611686018427387904. split; rewrite Rabs_pos_eq by lra; lra.
Qed.
Lemma not_cut : fp_mul I64 1000000000 big_a 16384 = Ok 75557863725901 /\ Ztrunc (num 1000000000 big_a * num 1000000000 16384 * IZR 1000000000) = 75557863725900.
Proof. split; [vm_compute; reflexivity|]. rewrite mul_num, Ztrunc_div by lia. reflexivity. Qed.

(* other dividers *)
Lemma convert_hyps : 0 < 1000 /\ 0 <= 1250 /\ 0 <= 16 /\ 1250 * 16 < 2 ^ 64 /\ fits I8 (Ztrunc (num 1000 1250 * IZR 16)) = true.
Proof. repeat split; try lia. replace (num 1000 1250 * IZR 16)%R with (IZR 20) by (unfold num; lra). rewrite Ztrunc_IZR. reflexivity. Qed.
Lemma convert_neg : fp_convert I32 10 10 (-1) = -1717986920.
Proof. reflexivity. Qed.
Lemma convert_value : forall t D OD a, (0 < OD)%Z -> (0 <= a)%Z -> (0 < D)%Z -> (a * D < 2 ^ 64)%Z -> fits t (Ztrunc (num OD a * IZR D)) = true ->
  truncated D (fp_convert t D OD a) (num OD a) /\ (forall c, num D c = num OD a -> fp_convert t D OD a = c).
Proof.
  intros t D OD a H1 H2 H3 H4 F. assert (E : fp_convert t D OD a = Ztrunc (num OD a * IZR D)).
  { apply convert_ok; auto; try lia; try nia. replace (num OD a * IZR D)%R with (IZR (a * D) / IZR OD)%R in F by (unfold num; rewrite mult_IZR; unfold Rdiv; ring). rewrite Ztrunc_div in F by lia. exact F. }
  split; [apply truncated_intro; auto|]. intros c Hc. rewrite E, <- Hc. replace (num D c * IZR D)%R with (IZR c); [apply Ztrunc_IZR|]. unfold num. field. apply IZR_neq. lia.
Qed.

(* doubles *)
Lemma double_hyps : 0 < 1000 < 2 ^ 53 /\ fits I16 (-1375) = true /\ Z.abs (-1375) < 2 ^ 53 /\ is_double (num 1000 (-1375)).
Proof.
  split; [lia|]. split; [reflexivity|]. split; [lia|]. unfold is_double. change (SpecFloat.fexp 53 1024) with (FLT_exp (SpecFloat.emin 53 1024) 53). apply generic_format_FLT. apply (FLT_spec _ _ _ _ (Float radix2 (-11) (-3))).
  - unfold num, F2R. cbn. lra.
  - cbn. lia.
  - cbn. lia.
Qed.
Lemma double_lost : fp_of_double I8 100 (fp_to_double 100 29) = Ok 28.
Proof. vm_compute. reflexivity. Qed.
Lemma double_wrong : is_double (num 3 27021597764222973) /\ fits I64 27021597764222973 = true /\ fp_of_double I64 3 (fp_to_double 3 27021597764222973) = Ok 27021597764222972.
Proof.
  split; [|split; [reflexivity|vm_compute; reflexivity]]. unfold is_double. change (SpecFloat.fexp 53 1024) with (FLT_exp (SpecFloat.emin 53 1024) 53). apply generic_format_FLT. apply (FLT_spec _ _ _ _ (Float radix2 9007199254740991 0)).
  - unfold num, F2R. cbn. lra.
  - cbn. lia.
  - cbn. lia.
Qed.
(* products and quotients that do not fit *)
Lemma out_of_range : fits I64 (2 ^ 62) = true /\ fits I32 65536 = true /\ fp_mul I64 1 (2 ^ 62) 4 = UB /\ fp_div I64 4 (2 ^ 62) 1 = UB /\ fp_mul I32 1 65536 65536 = Ok 0 /\ fp_div I32 65536 65536 1 = Ok 0.
Proof. vm_compute. repeat split; reflexivity. Qed.
