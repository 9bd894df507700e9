(** * The text of an expression: vocabulary of the statements *)
From Coq Require Import String Ascii Arith List Bool Reals.
From Verif Require Import Lib_Ring Lib_Real Lib_Res DesignVar_Base Expr_Base Scalar_Model Text_Model.
Import ListNotations.
Local Open Scope string_scope.

(* none of the characters of a list occurs in a text *)
Fixpoint free_of (cs : list ascii) (s : string) : Prop := match s with EmptyString => True | String c s' => ~ In c cs /\ free_of cs s' end.
Definition name_chars : list ascii := ["("; ")"; ","; "="]%char.
Definition value_chars : list ascii := [")"; ","]%char.
(* every value below has a text *)
Fixpoint evaluates (n : node) : Prop :=
  match n with NNull | NRaw _ => True | NNode _ args v => (exists x, v = Ok x) /\ fold_right (fun a P => evaluates a /\ P) True args end.
(* the text of a tree: name(argument, argument, ...)=value, name=value, the bare text, or <> *)
Definition value_text (v : res string) : string := match v with Ok x => x | _ => "" end.
Fixpoint render (n : node) : string :=
  match n with
  | NNull => "<>" | NRaw s => s
  | NNode name args v => name ++ match args with [] => "" | _ => "(" ++ String.concat ", " (map render args) ++ ")" end ++ "=" ++ value_text v
  end.
(* names and bare texts without the four marks of the notation, bare texts not those of a missing node, values without a closing parenthesis and a comma *)
Fixpoint legible (n : node) : Prop :=
  match n with
  | NNull => True | NRaw s => free_of name_chars s /\ s <> "<>"
  | NNode name args v => free_of name_chars name /\ (exists x, v = Ok x /\ free_of value_chars x) /\ fold_right (fun a P => legible a /\ P) True args
  end.
Definition legible_printer (p : printer) : Prop :=
  (forall k, free_of name_chars (p_type p k) /\ p_type p k <> "<>") /\ (forall x, free_of value_chars (p_double p x)) /\ forall n x, free_of value_chars (p_vector p n x).
(* built from constants with *, /, unary minus and + only *)
Fixpoint arithmetic (e : sexpr) : Prop :=
  match e with SConst _ => True | SMul a b | SDiv a b => arithmetic a /\ arithmetic b | SNeg a => arithmetic a | SAdd a b m => m = 1%R /\ arithmetic a /\ arithmetic b | _ => False end.
(* the same operations on constants that print alike *)
Fixpoint same_but_digits (p : printer) (e e' : sexpr) : Prop :=
  match e, e' with
  | SConst c, SConst c' => p_double p c = p_double p c'
  | SMul a b, SMul a' b' | SDiv a b, SDiv a' b' | SAdd a b _, SAdd a' b' _ => same_but_digits p a a' /\ same_but_digits p b b'
  | SNeg a, SNeg a' => same_but_digits p a a'
  | _, _ => False
  end.
(* nothing but a bare text *)
Definition is_raw (n : node) : bool := match n with NRaw _ => true | _ => false end.
(* the components of a stacked vector, in order *)
Fixpoint components (l : slist) : list sexpr := match l with SNil => [] | SCons a l' => a :: components l' end.
