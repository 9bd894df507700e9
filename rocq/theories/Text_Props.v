(** * C80: the text of an expression *)
From Coq Require Import String Ascii Arith List Bool Reals.
From Verif Require Import Lib_Ring Lib_Real Lib_Res DesignVar_Base Expr_Base Scalar_Model Text_Model Text_Spec Text_Proofs Text_Proofs2 Text_Toy.
Import ListNotations.
Local Open Scope string_scope.

(** C80: the text of a tree of nodes whose values can be computed is name(argument, ..., argument)=value with every argument once and in order, and it is written behind what the stream holds. *)
Theorem C80_text : forall n, evaluates n -> forall text, visit n text = Ok (text ++ render n).
Proof. exact visit_render. Qed.
Print Assumptions C80_text.
Example C80_text_ex : evaluates nX /\ legible nX /\ getText nX = Ok "NWA(N=3, <>, T)=8".
Proof. exact nX_case. Qed.

(** C80: the text determines the tree, if names and bare texts hold none of the marks ( ) , = and values neither ) nor a comma. *)
Theorem C80_readable : forall n n' t, legible n -> legible n' -> getText n = Ok t -> getText n' = Ok t -> n = n'.
Proof. exact text_injective. Qed.
Print Assumptions C80_readable.

(** C80: a scalar expression that can be evaluated has a text; unless it is a bare type name it ends with the value. *)
Theorem C80_scalar_text : forall p e s x, sval e s = Ok x ->
  exists t, getText (snode p e s) = Ok t /\ t = render (snode p e s) /\ (is_raw (snode p e s) = false -> exists h, t = h ++ "=" ++ p_double p x).
Proof. exact scalar_text. Qed.
Print Assumptions C80_scalar_text.
Theorem C80_vector_text : forall p v s x, vval v s = Ok x -> exists t h, getText (vnode p v s) = Ok t /\ t = render (vnode p v s) /\ t = h ++ "=" ++ p_vector p (vsize v) x.
Proof. exact vector_text. Qed.
Print Assumptions C80_vector_text.
Example C80_vector_text_ex : forall s, exists x, vval vX s = Ok x.
Proof. exact vX_case. Qed.

(** C80: the text of an operation, from the texts and the values of its operands. *)
Theorem C80_operations : forall p s a b x y ta tb, sval a s = Ok x -> sval b s = Ok y -> getText (snode p a s) = Ok ta -> getText (snode p b s) = Ok tb ->
  getText (snode p (SMul a b) s) = Ok ("*(" ++ ta ++ ", " ++ tb ++ ")=" ++ p_double p (x * y)%R) /\
  (y <> 0%R -> getText (snode p (SDiv a b) s) = Ok ("/(" ++ ta ++ ", " ++ tb ++ ")=" ++ p_double p (x / y)%R)) /\
  getText (snode p (SNeg a) s) = Ok ("-(" ++ ta ++ ")=" ++ p_double p (- x)%R) /\
  (forall m, getText (snode p (SAdd a b m) s) = Ok ("+(" ++ ta ++ ", " ++ tb ++ ")=" ++ p_double p (x + m * y)%R)) /\
  (forall c, getText (snode p (SConst c) s) = Ok ("#=" ++ p_double p c)).
Proof. exact operations. Qed.
Print Assumptions C80_operations.
Theorem C80_stacks : forall p s,
  (forall l x ts, l <> SNil -> vval (VStack l) s = Ok x -> Forall2 (fun a t => getText (snode p a s) = Ok t) (components l) ts ->
     getText (vnode p (VStack l) s) = Ok ("#(" ++ String.concat ", " ts ++ ")=" ++ p_vector p (length ts) x)) /\
  (forall a b x y ta tb, vval a s = Ok x -> vval b s = Ok y -> getText (vnode p a s) = Ok ta -> getText (vnode p b s) = Ok tb ->
     getText (vnode p (VAdd a b) s) = Ok ("+(" ++ ta ++ ", " ++ tb ++ ")=" ++ p_vector p (vsize a) (fun i => x i + y i)%R)).
Proof. exact stacks. Qed.
Print Assumptions C80_stacks.

(** C80, only constants under *, /, unary minus and +: equal texts come from the same operations on constants that print alike, and the values print alike. *)
Theorem C80_scalar_partial : forall p e e' s s' x x' t, legible_printer p -> arithmetic e -> arithmetic e' -> sval e s = Ok x -> sval e' s' = Ok x' ->
  getText (snode p e s) = Ok t -> getText (snode p e' s') = Ok t -> same_but_digits p e e' /\ p_double p x = p_double p x'.
Proof. exact scalar_same. Qed.
Print Assumptions C80_scalar_partial.
Example C80_scalar_ex : legible_printer pT /\ forall s, arithmetic eX /\ (exists x, sval eX s = Ok x) /\ getText (snode pT eX s) = Ok "+(*(#=1, -(#=1)=-1)=-1, #=1)=-1".
Proof. exact (conj pT_legible eX_case). Qed.

(** C80, what does not hold: a sum and a difference have one text although they differ at another state; nothing below a square root is shown; a named constant can have the text
    of a sum; a node whose value throws makes the whole text throw although the same failing subexpression alone is printed. *)
Theorem C80_refuted : forall p,
  (exists a b s s' t, let e := SAdd a b 1 in let e' := SAdd a b (-1) in
     getText (snode p e s) = Ok t /\ getText (snode p e' s) = Ok t /\ (exists x, sval e s = Ok x /\ sval e' s = Ok x) /\ (exists y y', sval e s' = Ok y /\ sval e' s' = Ok y' /\ y <> y')) /\
  (forall a b s s', getText (snode p (SSqrt a) s) = getText (snode p (SSqrt b) s')) /\
  (forall s x y, exists name, getText (namedConstant p name (x + 1 * y)) = getText (snode p (SAdd (SConst x) (SConst y) 1) s)) /\
  (forall s, getText (snode p (SSqrt (SConst 0)) s) = Ok (p_type p KSqrt) /\ getText (snode p (SNeg (SSqrt (SConst 0))) s) = Throw).
Proof. exact text_hides. Qed.
Print Assumptions C80_refuted.
