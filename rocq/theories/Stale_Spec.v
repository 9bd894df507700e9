(** * Jacobians at the current state *)
From Coq Require Import Arith Lia List ZArith Bool Reals.
From Verif Require Import Lib_Ring Lib_Real Lib_Res MatrixStack_Model DesignVar_Base Jacobian_Model Scalar_Model Geo_Model Stale_Model.
Import ListNotations.
Local Open Scope R_scope.

(* the value and the Jacobian calls of an expression, as functions of the state alone *)
Definition any_value_ok (X : kinematics) (e : anyx) (s : state) : Prop :=
  match e with AS e => exists v, sxval X e s = Ok v | AV e => exists v, vxval X e s = Ok v | AR e => exists v, rxval X e s = Ok v | AT e => exists v, txval X e s = Ok v | AH e => exists v, hxval X e s = Ok v end.
Definition jac_now (X : kinematics) (e : anyx) (s : state) : res (list (@cop R)) :=
  match e with AS e => sxjac X e s | AV e => vxjac X e s | AR e => rxjac X e s | AT e => txjac X e s | AH e => hxjac X e s end.

(* the node objects: number n is one node *)
Inductive node : Type := NV (v : vx) | NR (r : rx) | NT (t : tx) | NH (h : hx).
(* the numbers in the expression agree with the objects L *)
Fixpoint sxlab (L : nat -> node) (e : sx) : Prop :=
  match e with XVar _ | XConst _ => True | XUn _ a => sxlab L a | XBin _ a b | XAdd a b _ => sxlab L a /\ sxlab L b | XComp v _ => vxlab L v end
with vxlab (L : nat -> node) (v : vx) : Prop :=
  match v with
  | VxVar _ | VxConst _ _ | ExDir _ _ => True
  | VxStack l => sllab L l
  | VxAdd a b | ExCross a b | ExSub a b | ExElem a b => vxlab L a /\ vxlab L b
  | VxScale p e => vxlab L p /\ sxlab L e
  | ExRot n r p => L n = NV v /\ rxlab L r /\ vxlab L p
  | ExMat n _ _ p => L n = NV v /\ vxlab L p
  | ExSubC a _ | ExNeg a => vxlab L a
  | ExTrans t => txlab L t
  | ExPar r => rxlab L r
  | ExHom h => hxlab L h
  end
with sllab (L : nat -> node) (l : sl) : Prop := match l with XNil => True | XCons a l' => sxlab L a /\ sllab L l' end
with rxlab (L : nat -> node) (r : rx) : Prop :=
  match r with RxVar _ | RxConst _ => True | RxMul n a b => L n = NR r /\ rxlab L a /\ rxlab L b | RxInv n a => L n = NR r /\ rxlab L a | RxOfT t => txlab L t | RxAxis _ e => sxlab L e end
with txlab (L : nat -> node) (t : tx) : Prop :=
  match t with TxRT r p => rxlab L r /\ vxlab L p | TxR r => rxlab L r | TxT p => vxlab L p | TxMul n a b => L n = NT t /\ txlab L a /\ txlab L b | TxInv n a => L n = NT t /\ txlab L a | TxConst _ => True end
with hxlab (L : nat -> node) (h : hx) : Prop :=
  match h with HxPoint _ | HxConst _ => True | HxOfE p => vxlab L p | HxMul n t h' => L n = NH h /\ txlab L t /\ hxlab L h' end.
Definition any_lab (L : nat -> node) (e : anyx) : Prop := match e with AS e => sxlab L e | AV e => vxlab L e | AR e => rxlab L e | AT e => txlab L e | AH e => hxlab L e end.

(* events that leave the state alone and concern the same objects *)
Definition quiet (L : nat -> node) (ev : event) : Prop := match ev with EvState _ => False | EvValue e | EvJac e => any_lab L e end.

(* expressions without caching nodes, except below nodes that evaluate their operand before its Jacobians *)
Fixpoint sxcur (e : sx) : bool :=
  match e with XVar _ | XConst _ => true | XUn UNeg a => sxcur a | XUn _ _ => true | XBin BMul a b => sxcur a | XBin _ a b => true | XAdd a b _ => sxcur a && sxcur b | XComp v _ => vxcur v end
with vxcur (v : vx) : bool :=
  match v with
  | VxVar _ | VxConst _ _ | ExDir _ _ => true
  | VxStack l => slcur l
  | VxAdd a b | ExSub a b => vxcur a && vxcur b
  | ExCross a _ | ExElem a _ => vxcur a
  | VxScale p e => vxcur p
  | ExRot _ _ _ | ExMat _ _ _ _ => false
  | ExSubC a _ | ExNeg a => vxcur a
  | ExTrans _ | ExPar _ | ExHom _ => true
  end
with slcur (l : sl) : bool := match l with XNil => true | XCons a l' => sxcur a && slcur l' end.
Fixpoint rxcur (r : rx) : bool := match r with RxVar _ | RxConst _ => true | RxMul _ _ _ | RxInv _ _ => false | RxOfT t => txcur t | RxAxis _ e => sxcur e end
with txcur (t : tx) : bool := match t with TxRT r p => rxcur r | TxR r => rxcur r | TxT p => vxcur p | TxMul _ _ _ | TxInv _ _ => false | TxConst _ => true end.
Definition hxcur (h : hx) : bool := match h with HxPoint _ | HxConst _ => true | HxOfE p => vxcur p | HxMul _ _ _ => false end.
Definition any_cur (e : anyx) : bool := match e with AS e => sxcur e | AV e => vxcur e | AR e => rxcur e | AT e => txcur e | AH e => hxcur e end.
