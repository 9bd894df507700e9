(** * Reported design variables: vocabulary of the statements *)
From Coq Require Import Arith List Bool Reals.
From Verif Require Import Lib_Ring Lib_Real Lib_Res MatrixStack_Model DesignVar_Base Jacobian_Model Expr_Base Scalar_Model MatExpr_Model.
Import ListNotations.

(* the identities of the variables for which a sparse container holds a block *)
Definition key_ids (m : @jmap R) : list nat := map (fun x => dv_id (fst x)) m.
(* the conditions of the piecewise nodes of a scalar expression *)
Fixpoint sconds (e : sexpr) : list (state -> bool) :=
  match e with
  | SVar _ | SConst _ => []
  | SMul a b | SDiv a b | SAdd a b _ | SAtan2 a b => sconds a ++ sconds b
  | SNeg a | SSqrt a | SLog a | SExp a | SAtan a | STanh a | SAcos a | SAcosSq a | SSigmoid a _ _ _ | SPow a _ | SSin a | SCos a => sconds a
  | SPiece a b c => c :: sconds a ++ sconds b
  | SComp v _ => vconds v
  end
with vconds (v : vexpr) : list (state -> bool) :=
  match v with VVar _ | VConst _ _ => [] | VStack l => lconds l | VAdd a b => vconds a ++ vconds b | VScale p e => vconds p ++ sconds e end
with lconds (l : slist) : list (state -> bool) := match l with SNil => [] | SCons a l' => sconds a ++ lconds l' end.
(* the scalar and vector expressions inside a matrix expression *)
Fixpoint xleaves (e : mx) : list leaf :=
  match e with
  | XVec _ | XQuat _ _ _ | XConst _ _ _ => [] | XUn _ a | XExp _ a | XLog _ a => xleaves a | XBin _ a b => xleaves a ++ xleaves b
  | XScaleS a e => xleaves a ++ sxleaves e | XOfS e => sxleaves e | XExt l => [l]
  end
with sxleaves (e : sx) : list leaf := match e with SExt l => [l] | SEntry a _ _ | SNorm a => xleaves a end.
(* the container holds a block for exactly the active design variables of the list *)
Definition blocks_of (m : @jmap R) (l : list dvr) : Prop := forall id, In id (key_ids m) <-> exists d, In d l /\ dv_active d = true /\ dv_id d = id.
(* two states give the same values to the design variables of the list *)
Definition agree (l : list dvr) (s s' : state) : Prop := forall d, In d l -> s (dv_id d) = s' (dv_id d).
(* the scalar and vector expressions below: calls only for reported variables, nothing but the reported variables read *)
Definition leaf_reports (s : state) (l : leaf) : Prop := forall ops d, l_jac l s = Ok ops -> In d (ops_dvs ops) -> In d (l_dvs l).
Definition leaf_reads (s s' : state) (l : leaf) : Prop := agree (l_dvs l) s s' -> l_val l s = l_val l s' /\ l_jac l s = l_jac l s'.
