(** * Arithmetic as a parameter: the functions that use +, -, *, /, sqrt and comparisons on [double] are written once over [Num];
    [b64_num] is IEEE double precision (Flocq, rounding to nearest even), [R_num] is exact real arithmetic (no NaN; a quotient by zero and the
    root of a negative number are whatever Coq's reals say, so theorems about [R_num] must not depend on them). *)
From Coq Require Import ZArith Reals Lra Bool.
From Flocq Require Import Core BinarySingleNaN.
From Verif Require Import Lib_Float.

Class Num (N : Type) := {
  nadd : N -> N -> N; nsub : N -> N -> N; nmul : N -> N -> N; ndiv : N -> N -> N; nopp : N -> N; nabs : N -> N; nsqrt : N -> N;
  nlt : N -> N -> bool; nle : N -> N -> bool; neq : N -> N -> bool; nnan : N -> bool;
  (* the literal a/b of the source text, rounded *)
  nlit : Z -> Z -> N }.

Definition fsqrt : b64 -> b64 := Bsqrt mode_NE.
#[global] Instance b64_num : Num b64 := {|
  nadd := fadd; nsub := fsub; nmul := fmul; ndiv := fdiv; nopp := fopp; nabs := fabs; nsqrt := fsqrt;
  nlt := flt; nle := fle; neq := feq; nnan := isnan; nlit := fun a b => if (b =? 1)%Z then fz a else fdiv (fz a) (fz b) |}.

Definition Rltb (a b : R) : bool := if Rlt_dec a b then true else false.
Definition Rleb (a b : R) : bool := if Rle_dec a b then true else false.
Definition Reqb (a b : R) : bool := if Req_EM_T a b then true else false.
#[global] Instance R_num : Num R := {|
  nadd := Rplus; nsub := Rminus; nmul := Rmult; ndiv := Rdiv; nopp := Ropp; nabs := Rabs; nsqrt := sqrt;
  nlt := Rltb; nle := Rleb; neq := Reqb; nnan := fun _ => false; nlit := fun a b => (IZR a / IZR b)%R |}.

Lemma Rltb_true : forall a b, Rltb a b = true <-> (a < b)%R.
Proof. intros. unfold Rltb. destruct (Rlt_dec a b); split; intros; auto; try discriminate; try contradiction. Qed.
Lemma Rltb_false : forall a b, Rltb a b = false <-> (b <= a)%R.
Proof. intros. unfold Rltb. destruct (Rlt_dec a b); split; intros; auto; try discriminate; lra. Qed.
Lemma Rleb_true : forall a b, Rleb a b = true <-> (a <= b)%R.
Proof. intros. unfold Rleb. destruct (Rle_dec a b); split; intros; auto; try discriminate; try contradiction. Qed.
Lemma Rleb_false : forall a b, Rleb a b = false <-> (b < a)%R.
Proof. intros. unfold Rleb. destruct (Rle_dec a b); split; intros; auto; try discriminate; lra. Qed.
Lemma Reqb_true : forall a b, Reqb a b = true <-> a = b.
Proof. intros. unfold Reqb. destruct (Req_EM_T a b); split; intros; auto; try discriminate; try contradiction. Qed.
Lemma Reqb_false : forall a b, Reqb a b = false <-> a <> b.
Proof. intros. unfold Reqb. destruct (Req_EM_T a b); split; intros; auto; try discriminate; try contradiction; congruence. Qed.
