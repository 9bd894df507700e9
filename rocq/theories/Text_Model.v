(** * The text of an expression: ExpressionNodeVisitor and ToTextNodeVisitor *)
(* aslam_backend_expressions/include/aslam/backend/ExpressionNodeVisitor.hpp (H), src/ToTextNodeVisitor.cpp (C), src/ScalarExpressionNode.cpp (S), src/ScalarExpression.cpp (SE),
   include/aslam/backend/implementation/VectorExpressionNode.hpp (V), include/aslam/backend/VectorExpressionNode.hpp (Vh) *)
From Coq Require Import String Ascii Arith List Bool Reals.
From Verif Require Import Lib_Ring Lib_Real Lib_Res DesignVar_Base Expr_Base Scalar_Model.
Import ListNotations.
Local Open Scope string_scope.

(* what a visitor meets: an empty shared pointer (H L55-56), a bare text or type name (H L33-39, L79-81), or a call of visit(name, this, args...) (H L41-45, L136-146) whose
   node computes the text of its value (H L94-98; an exception or an undefined evaluation of the node is kept) *)
Inductive node := NNull | NRaw (s : string) | NNode (name : string) (args : list node) (value : res string).

(* H L112-123: visitArg<n-1>(argIndex, v), recursion from the last argument down; the arguments are given by what beAcceptedBy does with them to the stream *)
Fixpoint visitArg (args : list (string -> res string)) (n argIndex : nat) (text : string) : res string :=
  match n with 0 => Ok text | S k => if Nat.eqb k argIndex then nth k args (fun t => Ok t) text else visitArg args k argIndex text end.
(* H L100-105: NodeImpl::accept *)
Definition accept (args : list (string -> res string)) (argIndex : nat) (text : string) : res string :=
  if Nat.leb (length args) argIndex then Throw else visitArg args (length args) argIndex text.
(* C L21-24: the loop over the arguments, from i on *)
Fixpoint argLoop (args : list (string -> res string)) (fuel i : nat) (text : string) : res string :=
  match fuel with
  | 0 => Ok text
  | S f => do t <- accept args i text; argLoop args f (S i) (if Nat.ltb (i + 1) (length args) then t ++ ", " else t)
  end.
(* C L17-28: ToTextNodeVisitor::visitV *)
Definition visitV (name : string) (args : list (string -> res string)) (value : res string) (text : string) : res string :=
  let text := text ++ name in
  do text <- (if Nat.ltb 0 (length args) then do t <- argLoop args (length args) 0 (text ++ "("); Ok (t ++ ")") else Ok text);   (* C L19-26, H L25 *)
  do v <- value; Ok (text ++ "=" ++ v).                                                                                      (* C L27 *)
(* H L53-60, C L9-15: one expression node; the text is the stream of the visitor *)
Fixpoint visit (n : node) (text : string) : res string :=
  match n with NNull => Ok (text ++ "<>") | NRaw s => Ok (text ++ s) | NNode name args value => visitV name (map visit args) value text end.
(* ToTextNodeVisitor.h L13: getText() of a visitor used once *)
Definition getText (n : node) : res string := visit n "".

(* the scalar node classes without an accept of their own: S L23-25 prints the name of the type *)
Inductive sclass := KVar | KSqrt | KLog | KExp | KAtan | KTanh | KAtan2 | KAcos | KAcosSq | KSigmoid | KPow | KPiece | KSin | KCos | KComp.
(* std::type_info::name() and operator<< of double and of vectors, from outside the repository *)
Record printer := mkPrinter { p_type : sclass -> string; p_double : R -> string; p_vector : nat -> vec R -> string }.
(* accept of the scalar and vector nodes *)
Definition svalue (p : printer) (e : sexpr) (s : state) : res string := do x <- sval e s; Ok (p_double p x).     (* H L94-98 *)
Definition vvalue (p : printer) (v : vexpr) (s : state) : res string := do x <- vval v s; Ok (p_vector p (vsize v) x).   (* H L94-98 *)
Fixpoint snode (p : printer) (e : sexpr) (s : state) : node :=
  match e with
  | SConst _ => NNode "#" [] (svalue p e s)                                  (* S L313-315 *)
  | SMul a b => NNode "*" [snode p a s; snode p b s] (svalue p e s)          (* S L297-299 *)
  | SDiv a b => NNode "/" [snode p a s; snode p b s] (svalue p e s)          (* S L301-303 *)
  | SNeg a => NNode "-" [snode p a s] (svalue p e s)                         (* S L305-307 *)
  | SAdd a b _ => NNode "+" [snode p a s; snode p b s] (svalue p e s)        (* S L309-311 *)
  | SVar _ => NRaw (p_type p KVar) | SSqrt _ => NRaw (p_type p KSqrt) | SLog _ => NRaw (p_type p KLog) | SExp _ => NRaw (p_type p KExp)      (* S L23-25 *)
  | SAtan _ => NRaw (p_type p KAtan) | STanh _ => NRaw (p_type p KTanh) | SAtan2 _ _ => NRaw (p_type p KAtan2) | SAcos _ => NRaw (p_type p KAcos)
  | SAcosSq _ => NRaw (p_type p KAcosSq) | SSigmoid _ _ _ _ => NRaw (p_type p KSigmoid) | SPow _ _ => NRaw (p_type p KPow) | SPiece _ _ _ => NRaw (p_type p KPiece)
  | SSin _ => NRaw (p_type p KSin) | SCos _ => NRaw (p_type p KCos) | SComp _ _ => NRaw (p_type p KComp)
  end.
Fixpoint lnodes (p : printer) (l : slist) (s : state) : list node := match l with SNil => [] | SCons a l' => snode p a s :: lnodes p l' s end.  (* V L36 *)
Fixpoint vnode (p : printer) (v : vexpr) (s : state) : node :=
  match v with
  | VConst _ _ => NNode "#" [] (vvalue p v s)                                (* V L29-32 *)
  | VStack l => NNode "#" (lnodes p l s) (vvalue p v s)                      (* V L34-37 *)
  | VAdd a b => NNode "+" [vnode p a s; vnode p b s] (vvalue p v s)          (* V L67-70 *)
  | VVar _ | VScale _ _ => NNode "V" [] (vvalue p v s)                       (* Vh L39 *)
  end.
(* SE L17-34: ScalarExpression(name, value) *)
Definition namedConstant (p : printer) (name : string) (c : R) : node := NNode name [] (Ok (p_double p c)).
(* SE L214-216, VectorExpression.hpp L53: accept of the expression, whose root may be empty *)
Definition exprNode (root : option node) : node := match root with Some n => n | None => NNull end.
