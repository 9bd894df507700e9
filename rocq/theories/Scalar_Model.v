(** * Scalar and vector expressions

    aslam_backend_expressions: include/aslam/backend/implementation/ScalarExpressionNode.hpp ("S"), include/aslam/backend/ScalarExpressionNode.hpp ("Sh"),
    src/ScalarExpression.cpp ("SE"), src/Scalar.cpp ("Sc"), include/aslam/backend/implementation/VectorExpressionNode.hpp ("V"),
    include/aslam/backend/implementation/DesignVariableVector.hpp ("DV"), include/aslam/backend/implementation/GenericScalarExpression.hpp ("G").

    Numbers are real numbers: rounding is not modelled. A result that has no real value (infinite or NaN) is [UB], an exception is [Throw].
    evaluateJacobians is the list of calls it makes to its container (Jacobian_Model); entering a chain rule with apply(...) ends when the
    evaluated operand returns. *)
From Coq Require Import Arith Lia List ZArith Bool Reals.
From Verif Require Import Lib_Ring Lib_Real Lib_Res MatrixStack_Model DesignVar_Base Jacobian_Model.
Import ListNotations.
Local Open Scope R_scope.

Notation dvr := (dvar R).
(* the values of the design variables, by identity: Scalar::_p, DesignVariableVector::_v *)
(* Scalar.hpp L56, DesignVariableVector.hpp L51 *)
Definition state := nat -> vec R.
(* update(dp) Sc L25-27, DV L45: the value is increased by dp; here by h in component j *)
Definition perturb (s : state) (d : dvr) (j : nat) (h : R) : state :=
  fun id i => if (id =? dv_id d)%nat && (i =? j)%nat then s id i + h else s id i.

(* the node classes named at the constructors; the files are those above *)
(* ScalarExpressionNode.hpp L56-319 *)
Inductive sexpr : Type :=
| SVar (d : dvr)                                     (* Scalar *)
| SConst (c : R)                                     (* ScalarExpressionNodeConstant *)
| SMul (a b : sexpr) | SDiv (a b : sexpr) | SNeg (a : sexpr)
| SAdd (a b : sexpr) (m : R)                         (* a + m b *)
| SSqrt (a : sexpr) | SLog (a : sexpr) | SExp (a : sexpr) | SAtan (a : sexpr) | STanh (a : sexpr) | SAtan2 (a b : sexpr)
| SAcos (a : sexpr) | SAcosSq (a : sexpr) | SSigmoid (a : sexpr) (height scale shift : R) | SPow (a : sexpr) (k : Z)
| SPiece (a b : sexpr) (useFirst : state -> bool)
| SSin (a : sexpr) | SCos (a : sexpr)
| SComp (v : vexpr) (i : nat)                        (* ScalarExpressionNodeFromVectorExpression *)
with vexpr : Type :=
| VVar (d : dvr)                                     (* DesignVariableVector *)
| VConst (n : nat) (v : vec R)
| VStack (l : slist)
| VAdd (a b : vexpr)
| VScale (p : vexpr) (s : sexpr)
with slist : Type := SNil | SCons (a : sexpr) (l : slist).

(* the number of components: D, or components.size() *)
(* in the model only: size of a list of components *)
Fixpoint slen (l : slist) : nat := match l with SNil => 0 | SCons _ l' => S (slen l') end.
(* in the model only: size of a vector expression *)
Fixpoint vsize (v : vexpr) : nat :=
  match v with VVar d => dv_dim d | VConst n _ => n | VStack l => slen l | VAdd a _ => vsize a | VScale p _ => vsize p end.

(* floating point operations without a real result *)
(* in the model only: operator/ of doubles *)
Definition fdiv (x y : R) : res R := if Req_EM_T y 0 then UB else Ok (x / y).
(* in the model only: std::sqrt *)
Definition fsqrt (x : R) : res R := if Rlt_dec x 0 then UB else Ok (sqrt x).
(* same code: std::sqrt *)
Definition fpow (x : R) (k : Z) : res R := if Req_EM_T x 0 then if (k <? 0)%Z then UB else Ok (powerRZ x k) else Ok (powerRZ x k).
(* std::atan2(y, x) *)
Definition atan2 (y x : R) : R :=
  if Rlt_dec 0 x then atan (y / x)
  else if Rlt_dec x 0 then if Rlt_dec y 0 then atan (y / x) - PI else atan (y / x) + PI
  else if Rlt_dec 0 y then PI / 2 else if Rlt_dec y 0 then - (PI / 2) else 0.
(* SM_ASSERT: x > 0 *)
(* same code: std::atan2 *)
Definition need_pos (x : R) : res R := if Rlt_dec 0 x then Ok x else Throw.
(* same code: std::atan2 *)
Definition eps : R := / 4503599627370496.

(* evaluateImplementation *)
Fixpoint sval (e : sexpr) (s : state) : res R :=
  match e with
  | SVar d => Ok (s (dv_id d) 0%nat)                                                          (* Sc L37-40 *)
  | SConst c => Ok c                                                                         (* Sh L135 *)
  | SMul a b => do x <- sval a s; do y <- sval b s; Ok (x * y)                               (* S L29-32 *)
  | SDiv a b => do x <- sval a s; do y <- sval b s; fdiv x y                                 (* S L40-43 *)
  | SNeg a => do x <- sval a s; Ok (- x)                                                     (* S L53-56 *)
  | SAdd a b m => do x <- sval a s; do y <- sval b s; Ok (x + m * y)                         (* S L63-66 *)
  | SSqrt a => do x <- sval a s; do x <- need_pos x; Ok (sqrt x)                             (* S L74-80 *)
  | SLog a => do x <- sval a s; do x <- need_pos x; Ok (ln x)                                (* S L89-95 *)
  | SExp a => do x <- sval a s; Ok (exp x)                                                   (* S L103-107 *)
  | SAtan a => do x <- sval a s; Ok (atan x)                                                 (* S L116-120 *)
  | STanh a => do x <- sval a s; Ok (tanh x)                                                 (* S L129-133 *)
  | SAtan2 a b => do x <- sval a s; do y <- sval b s; Ok (atan2 x y)                         (* S L142-146 *)
  | SAcos a => do x <- sval a s; if Rle_dec (-1) x then if Rle_dec x 1 then Ok (acos x) else Throw else Throw    (* S L160-166 *)
  | SAcosSq a => do x <- sval a s; if Rle_dec x 1 then if Rle_dec (-1) x then Ok (acos x * acos x) else Throw else Throw (* S L177-185 *)
  | SSigmoid a hh sc sh => do x <- sval a s; Ok (hh * (1/2) * (1 + tanh (- sc * (x - sh) * (1/2))))              (* S L204-209 *)
  | SPow a k => do x <- sval a s; fpow x k                                                   (* S L220-225 *)
  | SPiece a b c => if c s then sval a s else sval b s                                       (* S L236-243 *)
  | SSin a => do x <- sval a s; Ok (sin x)                                                   (* SE L134-136, L186-188 *)
  | SCos a => do x <- sval a s; Ok (cos x)                                                   (* SE L190-192 *)
  | SComp v i => do x <- vval v s; Ok (x i)                                                  (* Sh L336-342 *)
  end
with vval (v : vexpr) (s : state) : res (vec R) :=
  match v with
  | VVar d => Ok (s (dv_id d))                                                               (* DV *)
  | VConst _ x => Ok x                                                                       (* VectorExpressionNode.hpp L68 *)
  | VStack l => lval l s                                                                     (* V L39-48 *)
  | VAdd a b => do x <- vval a s; do y <- vval b s; Ok (fun i => x i + y i)                  (* V L72-76 *)
  | VScale p e => do x <- vval p s; do y <- sval e s; Ok (fun i => x i * y)                  (* V L99-103 *)
  end
with lval (l : slist) (s : state) : res (vec R) :=
  match l with
  | SNil => Ok (fun _ => 0)
  | SCons a l' => do x <- sval a s; do y <- lval l' s; Ok (fun i => match i with O => x | S i' => y i' end)
  end.

(* outJacobians.apply(...) for the evaluation of an operand *)
(* in the model only: the calls between apply and the end of its guard *)
Definition scope (o : @cop R) (ops : list (@cop R)) : list (@cop R) := o :: ops ++ [CEnd].
(* in the model only: Eigen Unit(i) as a column *)
Definition unit_col (n i : nat) : @dmat R := mkD n 1 (fun r _ => delta r i).
(* in the model only: Eigen Unit(i) as a row *)
Definition unit_row (n i : nat) : @dmat R := mkD 1 n (fun _ c => delta i c).

(* evaluateJacobiansImplementation *)
Fixpoint sjac (e : sexpr) (s : state) : res (list (@cop R)) :=
  match e with
  | SVar d => Ok [CAddId d]                                                                  (* Sc L42-45 *)
  | SConst _ => Ok []                                                                        (* Sh L136 *)
  | SMul a b =>                                                                              (* S L34-38 *)
      do y <- sval b s; do ja <- sjac a s; do x <- sval a s; do jb <- sjac b s;
      Ok (scope (CApplyS y) ja ++ scope (CApplyS x) jb)
  | SDiv a b =>                                                                              (* S L45-51 *)
      do y <- sval b s; do rec <- fdiv 1 y; do x <- sval a s; do ja <- sjac a s; do jb <- sjac b s;
      Ok (scope (CApplyS rec) ja ++ scope (CApplyS (- x * rec * rec)) jb)
  | SNeg a => do ja <- sjac a s; Ok (scope (CApplyS (-1)) ja)                                (* S L58-61 *)
  | SAdd a b m => do ja <- sjac a s; do jb <- sjac b s; Ok (ja ++ scope (CApplyS m) jb)      (* S L68-72 *)
  | SSqrt a => do x <- sval a s; do r <- fsqrt x; do f <- fdiv 1 (2 * r); do ja <- sjac a s; Ok (scope (CApplyS f) ja)   (* S L82-87 *)
  | SLog a => do x <- sval a s; do f <- fdiv 1 x; do ja <- sjac a s; Ok (scope (CApplyS f) ja)                           (* S L97-101 *)
  | SExp a => do x <- sval a s; do ja <- sjac a s; Ok (scope (CApplyS (exp x)) ja)           (* S L109-114 *)
  | SAtan a => do x <- sval a s; do f <- fdiv 1 (1 + x * x); do ja <- sjac a s; Ok (scope (CApplyS f) ja)                (* S L122-127 *)
  | STanh a => do x <- sval a s; do ja <- sjac a s; Ok (scope (CApplyS (1 - tanh x * tanh x)) ja)                        (* S L135-140 *)
  | SAtan2 a b =>                                                                            (* S L148-158 *)
      do x <- sval a s; do y <- sval b s; do f <- fdiv 1 (x * x + y * y); do ja <- sjac a s; do jb <- sjac b s;
      Ok (scope (CApplyS (y * f)) ja ++ scope (CApplyS (- x * f)) jb)
  | SAcos a =>                                                                               (* S L168-175 *)
      do x <- sval a s;
      if Rle_dec x 1 then do r <- fsqrt (1 - x * x); do f <- fdiv (-1) r; do ja <- sjac a s; Ok (scope (CApplyS f) ja) else Throw
  | SAcosSq a =>                                                                             (* S L187-202 *)
      do x <- sval a s;
      do f <- (if Rlt_dec ((x - 1) * (x - 1)) eps then Ok (-2 + 2 / 3 * (x - 1)) else do r <- fsqrt (1 - x * x); fdiv (-2 * acos x) r);
      do ja <- sjac a s; Ok (scope (CApplyS f) ja)
  | SSigmoid a hh sc sh =>                                                                   (* S L211-218 *)
      do x <- sval a s; do t <- fdiv 1 (cosh (1/2 * sc * (sh - x))); do ja <- sjac a s; Ok (scope (CApplyS (- (1/4) * hh * sc * t * t)) ja)
  | SPow a k => do x <- sval a s; do t <- fpow x (k - 1); do ja <- sjac a s; Ok (scope (CApplyS (IZR k * t)) ja)         (* S L227-234 *)
  | SPiece a b c => if c s then sjac a s else sjac b s                                       (* S L245-252 *)
  | SSin a => do x <- sval a s; do ja <- sjac a s; Ok (scope (CApplyS (cos x)) ja)           (* SE L137-139, L187 *)
  | SCos a => do x <- sval a s; do ja <- sjac a s; Ok (scope (CApplyS (- sin x)) ja)         (* SE L191 *)
  | SComp v i => do jv <- vjac v s; Ok (scope (CApply (unit_row (vsize v) i)) jv)            (* Sh L344-349 *)
  end
with vjac (v : vexpr) (s : state) : res (list (@cop R)) :=
  match v with
  | VVar d => Ok [CAddId d]                                                                  (* DV L63-66 *)
  | VConst _ _ => Ok []                                                                      (* VectorExpressionNode.hpp L69 *)
  | VStack l => ljac (slen l) 0 l s                                                          (* V L50-57 *)
  | VAdd a b => do ja <- vjac a s; do jb <- vjac b s; Ok (ja ++ jb)                          (* V L78-83 *)
  | VScale p e =>                                                                            (* V L105-110 *)
      do y <- sval e s; do jp <- vjac p s; do x <- vval p s; do je <- sjac e s;
      Ok (scope (CApplyS y) jp ++ scope (CApply (mkD (vsize p) 1 (fun r _ => x r))) je)
  end
with ljac (n i : nat) (l : slist) (s : state) : res (list (@cop R)) :=
  match l with
  | SNil => Ok []
  | SCons a l' => do ja <- sjac a s; do jl <- ljac n (S i) l' s; Ok (scope (CApply (unit_col n i)) ja ++ jl)
  end.

(** ** GenericScalarExpression *)
(* GenericScalarExpressionNode.hpp and implementation/GenericScalarExpressionNode.hpp (G) *)
Inductive gexpr : Type :=
| GVar (d : dvr) | GConst (c : R) | GMul (a b : gexpr) | GDiv (a b : gexpr) | GAdd (a b : gexpr) | GSub (a b : gexpr) | GNeg (a : gexpr) | GCast (a : gexpr).
(* evaluateImplementation: G L74-76, L92, L107-109, L126-128, L145-147, L164-166, L183-185 *)
Fixpoint gval (e : gexpr) (s : state) : res R :=
  match e with
  | GVar d => Ok (s (dv_id d) 0%nat)
  | GConst c => Ok c
  | GMul a b => do x <- gval a s; do y <- gval b s; Ok (x * y)
  | GDiv a b => do x <- gval a s; do y <- gval b s; fdiv x y
  | GAdd a b => do x <- gval a s; do y <- gval b s; Ok (x + y)
  | GSub a b => do x <- gval a s; do y <- gval b s; Ok (x - y)
  | GNeg a => do x <- gval a s; Ok (- x)
  | GCast a => gval a s
  end.
(* evaluateJacobiansImplementation *)
Fixpoint gjac (e : gexpr) (s : state) : res (list (@cop R)) :=
  match e with
  | GVar d => Ok [CAddId d]                                                                  (* implementation/GenericScalar.hpp L33-35 *)
  | GConst _ => Ok []                                                                        (* G L93 *)
  | GMul a b =>                                                                              (* G L111-114 *)
      do y <- gval b s; do ja <- gjac a s; do x <- gval a s; do jb <- gjac b s;
      Ok (scope (CApplyS y) ja ++ scope (CApplyS x) jb)
  | GDiv a b =>                                                                              (* G L130-133 *)
      do x <- gval a s; do y <- gval b s; do f1 <- fdiv (- x) (y * y); do ja <- gjac a s; do f2 <- fdiv 1 y; do jb <- gjac b s;
      Ok (scope (CApplyS f1) ja ++ scope (CApplyS f2) jb)
  | GAdd a b => do ja <- gjac a s; do jb <- gjac b s; Ok (ja ++ jb)                          (* G L149-152 *)
  | GSub a b => do ja <- gjac a s; do jb <- gjac b s; Ok (ja ++ scope (CApplyS (-1)) jb)     (* G L168-171 *)
  | GNeg a => do ja <- gjac a s; Ok (scope (CApplyS (-1)) ja)                                (* G L187-189 *)
  | GCast a => gjac a s                                                                      (* G L78-80 *)
  end.
