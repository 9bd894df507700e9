(** * Expression handles, which may be empty

    aslam_backend_expressions/src: EuclideanExpression.cpp ("EE"), RotationExpression.cpp ("RE"), TransformationExpression.cpp ("TE"), TransformationBasic.cpp ("TB");
    include/aslam/backend: implementation/VectorExpression.hpp ("VE"), implementation/GenericScalarExpression.hpp ("GS").
    A handle holds a shared pointer to a node. HBad stands for a handle to a node one of whose operand pointers is null: every use of it dereferences null.
    Sizes are fixed (not Eigen::Dynamic). The numbers of new nodes are arguments; they matter only for Stale_Model. *)
From Coq Require Import Arith List ZArith Bool Reals.
From Verif Require Import Lib_Ring Lib_Real Lib_Res MatrixStack_Model DesignVar_Base Jacobian_Model Scalar_Model Geo_Model.
Import ListNotations.
Local Open Scope R_scope.

(* _root: VectorExpression.hpp L55, RotationExpression.hpp, TransformationExpression.hpp L58 *)
Inductive handle (A : Type) : Type := HNull | HNode (e : A) | HBad.
Arguments HNull {A}. Arguments HNode {A} e. Arguments HBad {A}.
(* a new node with operands a and b, which the caller may leave null *)
(* same code: VectorExpression.hpp L55, RotationExpression.hpp, TransformationExpression.hpp L58 *)
Definition mk1 {A B} (f : A -> B) (a : handle A) : handle B := match a with HNode x => HNode (f x) | _ => HBad end.
(* same code: VectorExpression.hpp L55, RotationExpression.hpp, TransformationExpression.hpp L58 *)
Definition mk2 {A B C} (f : A -> B -> C) (a : handle A) (b : handle B) : handle C := match a, b with HNode x, HNode y => HNode (f x y) | _, _ => HBad end.
(* same code: VectorExpression.hpp L55, RotationExpression.hpp, TransformationExpression.hpp L58 *)
Definition isEmpty {A} (a : handle A) : bool := match a with HNull => true | _ => false end.

Section H.
  Variable X : kinematics.
  (* evaluate VE L39-45, toRotationMatrix RE L33-37, toTransformationMatrix TE L50-57 *)
  Definition heval (a : handle vx) (s : state) : res (vec R) := match a with HNull => Ok (fun _ => 0) | HNode e => vxval X e s | HBad => UB end.
  (* same code: VE L39-45, RE L33-37, TE L50-57 *)
  Definition hrot (a : handle rx) (s : state) : res (mat R) := match a with HNull => Ok mid | HNode e => rxval X e s | HBad => UB end.
  (* same code: VE L39-45, RE L33-37, TE L50-57 *)
  Definition htrf (a : handle tx) (s : state) : res (mat R) := match a with HNull => Ok mid | HNode e => txval X e s | HBad => UB end.
  (* evaluateJacobians: EE L20-30, VE L47-52, RE L48-52, TE L76-80 *)
  Definition hejac (a : handle vx) (s : state) : res (list (@cop R)) := match a with HNull => Ok [] | HNode e => vxjac X e s | HBad => UB end.
  (* same code: EE L20-30, VE L47-52, RE L48-52, TE L76-80 *)
  Definition hrjac (a : handle rx) (s : state) : res (list (@cop R)) := match a with HNull => Ok [] | HNode e => rxjac X e s | HBad => UB end.
  (* same code: EE L20-30, VE L47-52, RE L48-52, TE L76-80 *)
  Definition htjac (a : handle tx) (s : state) : res (list (@cop R)) := match a with HNull => Ok [] | HNode e => txjac X e s | HBad => UB end.
End H.

(* EE L46-54, VE L75-84 *)
Definition e_add (a p : handle vx) : handle vx := if isEmpty p then a else if isEmpty a then p else mk2 VxAdd a p.
(* EE L56-64 *)
Definition e_sub (a p : handle vx) : handle vx := if isEmpty p then a else if isEmpty a then p else mk2 ExSub a p.
(* EE L66-72 *)
Definition e_subc (a : handle vx) (c : vec R) : handle vx := if isEmpty a then HNode (VxConst 3 c) else mk1 (fun x => ExSubC x c) a.
(* EE L74-80 *)
Definition e_neg (a : handle vx) : handle vx := if isEmpty a then a else mk1 ExNeg a.
(* EE L32-38 *)
Definition e_cross (a p : handle vx) : handle vx := if isEmpty p || isEmpty a then HNull else mk2 ExCross a p.
(* EE L82-88, VE L86-95; a ScalarExpression is never empty *)
Definition e_scale (a : handle vx) (e : sx) : handle vx := if isEmpty a then HNull else mk1 (fun x => VxScale x e) a.
(* EE L40-44 *)
Definition e_elem (a p : handle vx) : handle vx := mk2 ExElem a p.
(* toHomogeneousExpression, with the assertion switched off: EE L13-18 *)
Definition e_hom (a : handle vx) : handle hx := mk1 HxOfE a.
(* RE L54-62 *)
Definition r_mul (n : nat) (a p : handle rx) : handle rx := if isEmpty p then a else if isEmpty a then p else mk2 (RxMul n) a p.
(* RE L40-45 *)
Definition r_inv (n : nat) (a : handle rx) : handle rx := if isEmpty a then a else mk1 (RxInv n) a.
(* RE L64-73 *)
Definition r_apply (n : nat) (a : handle rx) (p : handle vx) : handle vx := if isEmpty p then HNull else if isEmpty a then p else mk2 (ExRot n) a p.
(* TE L33-36, TB L8-11: a TransformationBasic may lack one part *)
Definition t_new (r : handle rx) (p : handle vx) : handle tx :=
  match r, p with HBad, _ => HBad | _, HBad => HBad | HNull, HNull => HNull | HNode r, HNode p => HNode (TxRT r p) | HNode r, HNull => HNode (TxR r) | HNull, HNode p => HNode (TxT p) end.
(* TE L93-99 *)
Definition t_mul (n : nat) (a b : handle tx) : handle tx := if isEmpty a then b else if isEmpty b then a else mk2 (TxMul n) a b.
(* TE L101-106 *)
Definition t_inv (n : nat) (a : handle tx) : handle tx := if isEmpty a then a else mk1 (TxInv n) a.
(* TE L59-65, TB L67-69 *)
Definition t_rot (a : handle tx) : handle rx := match a with HNull => HNull | HBad => HBad | HNode (TxRT r _) | HNode (TxR r) => HNode r | HNode (TxT _) => HNull | HNode t => HNode (RxOfT t) end.
(* TE L67-73, TB L71-77 *)
Definition t_trans (a : handle tx) : handle vx := match a with HNull => HNull | HBad => HBad | HNode (TxT p) => HNode p | HNode t => HNode (ExTrans t) end.
(* TE L82-91 *)
Definition t_apply (n : nat) (a : handle tx) (p : handle vx) : handle vx := if isEmpty a then p else mk1 ExHom (mk2 (HxMul n) a (e_hom p)).

(** ** GenericScalarExpression: operators do not check for empty operands *)
(* the node classes of GS L66-190; GNull is a null pointer *)
Inductive gx : Type := GNull | GVar (d : dvr) | GConst (c : R) | GAdd (a b : gx) | GSub (a b : gx) | GMul (a b : gx) | GDiv (a b : gx) | GNeg (a : gx).
(* toScalar of a node: GS L92, L107-109, L126-128, L145-147, L164-166, L183-185 *)
Fixpoint gnode (e : gx) (s : state) : res R :=
  match e with
  | GNull => UB | GVar d => Ok (s (dv_id d) 0%nat) | GConst c => Ok c
  | GAdd a b => do x <- gnode a s; do y <- gnode b s; Ok (x + y)
  | GSub a b => do x <- gnode a s; do y <- gnode b s; Ok (x - y)
  | GMul a b => do x <- gnode a s; do y <- gnode b s; Ok (x * y)
  | GDiv a b => do x <- gnode a s; do y <- gnode b s; fdiv x y
  | GNeg a => do x <- gnode a s; Ok (- x)
  end.
(* toScalar of the expression: GS L8-12 *)
Definition gval (e : gx) (s : state) : res R := match e with GNull => Ok 0 | _ => gnode e s end.
