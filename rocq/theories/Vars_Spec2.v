(** * Reported design variables of matrix expressions: vocabulary of the converse *)
From Coq Require Import Arith List Bool Reals.
From Verif Require Import Lib_Ring Lib_Real Lib_Res MatrixStack_Model DesignVar_Base Jacobian_Model Expr_Base Scalar_Model MatExpr_Model Vars_Spec.
Import ListNotations.

(* no unit quaternion of the expression is LEFT_TRANSLATED *)
Fixpoint xright (e : mx) : Prop :=
  match e with
  | XQuat _ _ g => g = RIGHT_TRANSLATED | XVec _ | XConst _ _ _ | XExt _ => True | XUn _ a | XExp _ a | XLog _ a => xright a | XBin _ a b => xright a /\ xright b
  | XScaleS a e => xright a /\ sxright e | XOfS e => sxright e
  end
with sxright (e : sx) : Prop := match e with SExt _ => True | SEntry a _ _ | SNorm a => xright a end.
(* the expressions of other kinds below: calls for exactly the reported variables *)
Definition leaf_exact (s : state) (l : leaf) : Prop := forall ops d, l_jac l s = Ok ops -> (In d (ops_dvs ops) <-> In d (l_dvs l)).
