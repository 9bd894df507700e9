(** * What it means for the Jacobian of an expression to be its derivative *)
From Coq Require Import Arith Lia List ZArith NArith Bool Reals.
From Verif Require Import Lib_Ring Lib_Real Lib_Res MatrixStack_Model DesignVar_Base Jacobian_Model Scalar_Model.
Import ListNotations.
Local Open Scope R_scope.

(* f has a value at every point near x, and its derivative at x is l *)
Definition rder (f : R -> res R) (x l : R) : Prop :=
  exists g delta, 0 < delta /\ (forall y, Rabs (y - x) < delta -> f y = Ok (g y)) /\ derivable_pt_lim g x l.

(* the partial derivative of an expression value with respect to component j of design variable d *)
Definition partial (f : state -> res R) (s : state) (d : dvr) (j : nat) (l : R) : Prop := rder (fun h => f (perturb s d j h)) 0 l.

(* well-formed expressions: a Scalar has one dimension, vectors that are added have equal length, components exist *)
Fixpoint swf (e : sexpr) : Prop :=
  match e with
  | SVar d => dv_dim d = 1%nat
  | SConst _ => True
  | SMul a b | SDiv a b | SAdd a b _ | SAtan2 a b | SPiece a b _ => swf a /\ swf b
  | SNeg a | SSqrt a | SLog a | SExp a | SAtan a | STanh a | SAcos a | SAcosSq a | SSigmoid a _ _ _ | SPow a _ | SSin a | SCos a => swf a
  | SComp v i => vwf v /\ (i < vsize v)%nat
  end
with vwf (v : vexpr) : Prop :=
  match v with
  | VVar _ | VConst _ _ => True
  | VStack l => lwf l
  | VAdd a b => vwf a /\ vwf b /\ vsize a = vsize b
  | VScale p e => vwf p /\ swf e
  end
with lwf (l : slist) : Prop := match l with SNil => True | SCons a l' => swf a /\ lwf l' end.

(* the points where the expression is differentiable and the implementation does not use a series *)
Fixpoint sdom (e : sexpr) (s : state) : Prop :=
  match e with
  | SVar _ | SConst _ => True
  | SMul a b | SAdd a b _ => sdom a s /\ sdom b s
  | SDiv a b => sdom a s /\ sdom b s /\ forall y, sval b s = Ok y -> y <> 0
  | SNeg a | SExp a | SAtan a | STanh a | SSigmoid a _ _ _ | SSin a | SCos a => sdom a s
  | SSqrt a | SLog a => sdom a s /\ forall x, sval a s = Ok x -> 0 < x
  | SAtan2 a b => sdom a s /\ sdom b s /\ forall x y, sval a s = Ok x -> sval b s = Ok y -> x <> 0 \/ 0 < y
  | SAcos a => sdom a s /\ forall x, sval a s = Ok x -> -1 < x < 1
  | SAcosSq a => sdom a s /\ forall x, sval a s = Ok x -> -1 < x < 1 /\ eps <= (x - 1) * (x - 1)
  | SPow a k => sdom a s /\ forall x, sval a s = Ok x -> x <> 0 \/ (1 <= k)%Z
  | SPiece a b c => (if c s then sdom a s else sdom b s) /\ forall d j, exists delta, 0 < delta /\ forall h, Rabs h < delta -> c (perturb s d j h) = c s
  | SComp v _ => vdom v s
  end
with vdom (v : vexpr) (s : state) : Prop :=
  match v with
  | VVar _ | VConst _ _ => True
  | VStack l => ldom l s
  | VAdd a b => vdom a s /\ vdom b s
  | VScale p e => vdom p s /\ sdom e s
  end
with ldom (l : slist) (s : state) : Prop := match l with SNil => True | SCons a l' => sdom a s /\ ldom l' s end.

(* getDesignVariables *)
Fixpoint sdvs (e : sexpr) : list dvr :=
  match e with
  | SVar d => [d]
  | SConst _ => []
  | SMul a b | SDiv a b | SAdd a b _ | SAtan2 a b | SPiece a b _ => sdvs a ++ sdvs b
  | SNeg a | SSqrt a | SLog a | SExp a | SAtan a | STanh a | SAcos a | SAcosSq a | SSigmoid a _ _ _ | SPow a _ | SSin a | SCos a => sdvs a
  | SComp v _ => vdvs v
  end
with vdvs (v : vexpr) : list dvr :=
  match v with VVar d => [d] | VConst _ _ => [] | VStack l => ldvs l | VAdd a b => vdvs a ++ vdvs b | VScale p e => vdvs p ++ sdvs e end
with ldvs (l : slist) : list dvr := match l with SNil => [] | SCons a l' => sdvs a ++ ldvs l' end.

(* the nesting depth, and the greatest number of components of a vector in the expression: what the chain-rule stack needs room for *)
Fixpoint sdepth (e : sexpr) : nat :=
  match e with
  | SVar _ | SConst _ => 0
  | SMul a b | SDiv a b | SAdd a b _ | SAtan2 a b | SPiece a b _ => S (Nat.max (sdepth a) (sdepth b))
  | SNeg a | SSqrt a | SLog a | SExp a | SAtan a | STanh a | SAcos a | SAcosSq a | SSigmoid a _ _ _ | SPow a _ | SSin a | SCos a => S (sdepth a)
  | SComp v _ => S (vdepth v)
  end
with vdepth (v : vexpr) : nat :=
  match v with VVar _ | VConst _ _ => 0 | VStack l => S (ldepth l) | VAdd a b => Nat.max (vdepth a) (vdepth b) | VScale p e => S (Nat.max (vdepth p) (sdepth e)) end
with ldepth (l : slist) : nat := match l with SNil => 0 | SCons a l' => Nat.max (sdepth a) (ldepth l') end.
Fixpoint swidth (e : sexpr) : nat :=
  match e with
  | SVar _ | SConst _ => 1
  | SMul a b | SDiv a b | SAdd a b _ | SAtan2 a b | SPiece a b _ => Nat.max (swidth a) (swidth b)
  | SNeg a | SSqrt a | SLog a | SExp a | SAtan a | STanh a | SAcos a | SAcosSq a | SSigmoid a _ _ _ | SPow a _ | SSin a | SCos a => swidth a
  | SComp v _ => vwidth v
  end
with vwidth (v : vexpr) : nat :=
  match v with VVar d => Nat.max 1 (dv_dim d) | VConst n _ => Nat.max 1 n | VStack l => Nat.max 1 (Nat.max (slen l) (lwidth l)) | VAdd a b => Nat.max (vwidth a) (vwidth b) | VScale p e => Nat.max (vwidth p) (swidth e) end
with lwidth (l : slist) : nat := match l with SNil => 1 | SCons a l' => Nat.max (swidth a) (lwidth l') end.

(* the chain-rule stack of a container with n rows and the given alignment has room for a nesting of this depth and width (see C02) *)
Definition stack_room (n al w depth : nat) : Prop :=
  (N.of_nat w < 65536)%N /\ (N.of_nat (n * w) < 2147483648)%N /\ (N.of_nat depth * N.of_nat (n * w + al) < 4294967296)%N.

(* the Jacobian the container holds for a design variable; one that was never added counts as zero *)
Definition jacobian_entry (st : list (dvr * @dmat R)) (d : dvr) (i j : nat) : R :=
  match sp_Jacobian st d with Ok M => d_at M i j | _ => 0 end.

(* GenericScalarExpression *)
Fixpoint gwf (e : gexpr) : Prop :=
  match e with GVar d => dv_dim d = 1%nat | GConst _ => True | GMul a b | GDiv a b | GAdd a b | GSub a b => gwf a /\ gwf b | GNeg a | GCast a => gwf a end.
Fixpoint gdom (e : gexpr) (s : state) : Prop :=
  match e with GVar _ | GConst _ => True | GMul a b | GAdd a b | GSub a b => gdom a s /\ gdom b s
  | GDiv a b => gdom a s /\ gdom b s /\ forall y, gval b s = Ok y -> y <> 0 | GNeg a | GCast a => gdom a s end.
Fixpoint no_division (e : gexpr) : Prop :=
  match e with GVar _ | GConst _ => True | GMul a b | GAdd a b | GSub a b => no_division a /\ no_division b | GDiv _ _ => False | GNeg a | GCast a => no_division a end.
Fixpoint gdvs (e : gexpr) : list dvr :=
  match e with GVar d => [d] | GConst _ => [] | GMul a b | GDiv a b | GAdd a b | GSub a b => gdvs a ++ gdvs b | GNeg a | GCast a => gdvs a end.
Fixpoint gdepth (e : gexpr) : nat :=
  match e with GVar _ | GConst _ => 0 | GMul a b | GDiv a b | GAdd a b | GSub a b => S (Nat.max (gdepth a) (gdepth b)) | GNeg a => S (gdepth a) | GCast a => gdepth a end.
