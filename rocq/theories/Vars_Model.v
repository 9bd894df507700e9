(** * getDesignVariables of the expression nodes

    aslam_backend_expressions/src: ScalarExpressionNode.cpp ("S"), Scalar.cpp ("Sc"), ScalarExpression.cpp ("SE"), EuclideanExpressionNode.cpp ("E"),
    RotationExpressionNode.cpp ("R"), TransformationExpressionNode.cpp ("T"), HomogeneousExpressionNode.cpp ("H"), RotationScalarExpressionNode.cpp ("RS"),
    RotationQuaternion.cpp ("Q"), EuclideanPoint.cpp ("P"), EuclideanDirection.cpp ("D"), HomogeneousPoint.cpp ("HP"), MatrixBasic.cpp ("MB"),
    TransformationBasic.cpp ("TB"); include/aslam/backend: ScalarExpressionNode.hpp ("Sh"), VectorExpressionNode.hpp ("Vh"),
    implementation/VectorExpressionNode.hpp ("V"), implementation/DesignVariableVector.hpp ("DV"), implementation/GenericScalarExpression.hpp ("G"),
    implementation/GenericScalar.hpp ("GS"). The expressions are those of Scalar_Model and Geo_Model; OperationResultNodes.hpp is in MatExpr_Model (xdvs).

    designVariables is a std::set of pointers: here the list of the insertions. *)
From Coq Require Import Arith Lia List ZArith Bool Reals.
From Verif Require Import Lib_Ring Lib_Real Lib_Res MatrixStack_Model DesignVar_Base Jacobian_Model Scalar_Model Geo_Model.
Import ListNotations.

(* the piecewise node asks its condition, so the answer depends on the state *)
Fixpoint sget (e : sexpr) (s : state) : list dvr :=
  match e with
  | SVar d => [d]                                          (* Sc L47-50 *)
  | SConst _ => []                                         (* Sh L137 *)
  | SMul a b => sget a s ++ sget b s                       (* S L39-43 *)
  | SDiv a b => sget a s ++ sget b s                       (* S L57-61 *)
  | SNeg a => sget a s                                     (* S L291-294 *)
  | SAdd a b _ => sget a s ++ sget b s                     (* S L77-81 *)
  | SSqrt a => sget a s                                    (* S L95-98 *)
  | SLog a => sget a s                                     (* S L111-114 *)
  | SExp a => sget a s                                     (* S L128-131 *)
  | SAtan a => sget a s                                    (* S L145-148 *)
  | STanh a => sget a s                                    (* S L161-164 *)
  | SAtan2 a b => sget a s ++ sget b s                     (* S L178-182 *)
  | SAcos a => sget a s                                    (* S L195-198 *)
  | SAcosSq a => sget a s                                  (* S L212-215 *)
  | SSigmoid a _ _ _ => sget a s                           (* S L231-234 *)
  | SPow a _ => sget a s                                   (* S L248-251 *)
  | SPiece a b c => if c s then sget a s else sget b s     (* S L265-272 *)
  | SSin a => sget a s                                     (* SE L123-125 *)
  | SCos a => sget a s                                     (* SE L123-125 *)
  | SComp v _ => vget v s                                  (* Sh L351-356 *)
  end
with vget (v : vexpr) (s : state) : list dvr :=
  match v with
  | VVar d => [d]                                          (* DV L68-71 *)
  | VConst _ _ => []                                       (* Vh L70 *)
  | VStack l => lget l s                                   (* V L59-65 *)
  | VAdd a b => vget a s ++ vget b s                       (* V L85-90 *)
  | VScale p e => vget p s ++ sget e s                     (* V L92-97 *)
  end
with lget (l : slist) (s : state) : list dvr :=
  match l with SNil => [] | SCons a l' => sget a s ++ lget l' s end.

Fixpoint gget (e : gexpr) : list dvr :=
  match e with
  | GVar d => [d]                                          (* GS L37-39 *)
  | GConst _ => []                                         (* G L94 *)
  | GMul a b | GDiv a b | GAdd a b | GSub a b => gget a ++ gget b    (* G L54-57 *)
  | GNeg a | GCast a => gget a                             (* G L39-41 *)
  end.

Fixpoint sxget (e : sx) : list dvr :=
  match e with
  | XVar d => [d]                                          (* Sc L47-50 *)
  | XConst _ => []                                         (* Sh L137 *)
  | XUn _ a => sxget a                                     (* S, SE as above *)
  | XBin _ a b => sxget a ++ sxget b                       (* S L39-43, L57-61, L178-182 *)
  | XAdd a b _ => sxget a ++ sxget b                       (* S L77-81 *)
  | XComp v _ => vxget v                                   (* Sh L351-356 *)
  end
with vxget (v : vx) : list dvr :=
  match v with
  | VxVar d => [d]                                         (* P L50-53, DV L68-71 *)
  | VxConst _ _ => []                                      (* Vh L70 *)
  | VxStack l => slget l                                   (* V L59-65 *)
  | VxAdd a b => vxget a ++ vxget b                        (* V L85-90, E L124-128 *)
  | VxScale p e => vxget p ++ sxget e                      (* V L92-97, E L235-239 *)
  | ExDir d _ => [d]                                       (* D L69-72 *)
  | ExRot _ r p => rxget r ++ vxget p                      (* E L21-25 *)
  | ExMat _ d _ p => (if (dv_dim d =? 0)%nat then [] else [d]) ++ vxget p    (* E L57-61, MB L65-69 *)
  | ExCross a b => vxget a ++ vxget b                      (* E L94-98 *)
  | ExSub a b => vxget a ++ vxget b                        (* E L154-158 *)
  | ExSubC a _ => vxget a                                  (* E L183-186 *)
  | ExNeg a => vxget a                                     (* E L208-211 *)
  | ExTrans t => txget t                                   (* E L274-276 *)
  | ExPar r => rxget r                                     (* E L301-303 *)
  | ExHom h => hxget h                                     (* E L325-327 *)
  | ExElem a b => vxget a ++ vxget b                       (* E L338-342 *)
  end
with slget (l : sl) : list dvr :=
  match l with XNil => [] | XCons a l' => sxget a ++ slget l' end
with rxget (r : rx) : list dvr :=
  match r with
  | RxVar d => [d]                                         (* Q L59-62 *)
  | RxConst _ => []                                        (* R L42-43 *)
  | RxMul _ a b => rxget a ++ rxget b                      (* R L72-75 *)
  | RxInv _ a => rxget a                                   (* R L100-103 *)
  | RxOfT t => txget t                                     (* R L127-129 *)
  | RxAxis _ e => sxget e                                  (* RS L37-40 *)
  end
with txget (t : tx) : list dvr :=
  match t with
  | TxRT r p => rxget r ++ vxget p                         (* TB L52-58 *)
  | TxR r => rxget r
  | TxT p => vxget p
  | TxMul _ a b => txget a ++ txget b                      (* T L42-46 *)
  | TxInv _ a => txget a                                   (* T L86-89 *)
  | TxConst _ => []                                        (* T L97 *)
  end
with hxget (h : hx) : list dvr :=
  match h with
  | HxPoint d => [d]                                       (* HP L50-53 *)
  | HxConst _ => []                                        (* H L85 *)
  | HxOfE p => vxget p                                     (* H L106-108 *)
  | HxMul _ t h => txget t ++ hxget h                      (* H L70-74 *)
  end.
