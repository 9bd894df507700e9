(** * What it means for the Jacobian of a geometric expression to be its derivative *)
From Coq Require Import Arith Lia List ZArith NArith Bool Reals.
From Verif Require Import Lib_Ring Lib_Real Lib_Res MatrixStack_Model DesignVar_Base Jacobian_Model Scalar_Model Scalar_Spec Geo_Model.
Import ListNotations.
Local Open Scope R_scope.

(** ** Rotation matrices and rigid transformations *)
Definition det3 (A : mat R) : R :=
  A 0%nat 0%nat * (A 1%nat 1%nat * A 2%nat 2%nat - A 1%nat 2%nat * A 2%nat 1%nat) - A 0%nat 1%nat * (A 1%nat 0%nat * A 2%nat 2%nat - A 1%nat 2%nat * A 2%nat 0%nat)
  + A 0%nat 2%nat * (A 1%nat 0%nat * A 2%nat 1%nat - A 1%nat 1%nat * A 2%nat 0%nat).
Definition is_rot (A : mat R) : Prop := meq 3 3 (mmul 3 A (mtr A)) mid /\ meq 3 3 (mmul 3 (mtr A) A) mid /\ det3 A = 1.
Definition rigid (T : mat R) : Prop := is_rot T /\ (forall j, (j < 3)%nat -> T 3%nat j = 0) /\ T 3%nat 3%nat = 1.

(** ** What is assumed of sm::kinematics and Eigen *)
(* a neighbourhood of zero *)
Definition near (P : R -> Prop) : Prop := exists delta, 0 < delta /\ forall h, Rabs h < delta -> P h.
(* the entries of a curve of rotation matrices move by minus phi^x from the left *)
Definition rot_velocity (g : R -> mat R) (phi : vec R) : Prop :=
  forall i j, (i < 3)%nat -> (j < 3)%nat -> derivable_pt_lim (fun h => g h i j) 0 (- mmul 3 (crossm phi) (g 0) i j).
Definition kinematics_ok (X : kinematics) (par_dom : mat R -> Prop) : Prop :=
  (* updateQuat: no change for zero; the left perturbation; rotations stay rotations *)
  (forall v j, rot_update X v j 0 = v) /\
  (forall v j, (j < 3)%nat -> rot_velocity (fun h => m3 (rot_update X v j h)) (delta j)) /\
  (forall v j h, is_rot (m3 v) -> is_rot (m3 (rot_update X v j h))) /\
  (* quatInvS is the derivative of updateQuat *)
  (forall v j, hom_update X v j 0 = v) /\
  (forall v i j, (i < 4)%nat -> (j < 3)%nat -> derivable_pt_lim (fun h => hom_update X v j h i) 0 (hom_jac X v i j)) /\
  (* yaw-pitch-roll matrices: the identity at zero, and the derivative of the third row *)
  (forall j, meq 3 3 (ypr X j 0) mid) /\
  (forall k, (k < 3)%nat -> derivable_pt_lim (fun h => ypr X 0 h 2%nat k) 0 (- delta k 0)) /\
  (forall k, (k < 3)%nat -> derivable_pt_lim (fun h => ypr X 1 h 2%nat k) 0 (delta k 1)) /\
  (* the Jacobian of the rotation parameters *)
  (forall g phi i, near (fun h => is_rot (g h)) -> par_dom (g 0) -> rot_velocity g phi -> (i < 3)%nat -> derivable_pt_lim (fun h => rot_params X (g h) i) 0 (mvmul 3 (rot_params_jac X (g 0)) phi i)) /\
  (* Eigen computes the inverse of a rigid transformation *)
  (forall T S, rigid T -> meq 4 4 (mmul 4 S T) mid -> meq 4 4 (inv4 X T) S).

  (* the rotations of the state are rotation matrices *)
  Definition state_ok (kinds : nat -> kind) (s : state) : Prop := forall id, kinds id = KRot -> is_rot (m3 (s id)).
  (* the partial derivative with respect to component j of the update of design variable d *)
  Definition gpartial (X : kinematics) (kinds : nat -> kind) (f : state -> res R) (s : state) (d : dvr) (j : nat) (l : R) : Prop := rder (fun h => f (gperturb X kinds s d j h)) 0 l.

  (* the minimal dimension fits the kind of design variable *)
  Definition dv_ok (kinds : nat -> kind) (d : dvr) : Prop := match kinds (dv_id d) with KVec => True | KRot | KHom => dv_dim d = 3%nat | KDir => dv_dim d = 2%nat | KMat n _ => dv_dim d = n end.
  Fixpoint sxwf (kinds : nat -> kind) (e : sx) : Prop :=
    match e with
    | XVar d => kinds (dv_id d) = KVec /\ dv_dim d = 1%nat
    | XConst _ => True
    | XUn _ a => sxwf kinds a
    | XBin _ a b | XAdd a b _ => sxwf kinds a /\ sxwf kinds b
    | XComp v i => vxwf kinds v /\ (i < vxsize v)%nat
    end
  with vxwf (kinds : nat -> kind) (v : vx) : Prop :=
    match v with
    | VxVar d => kinds (dv_id d) = KVec
    | VxConst _ _ => True
    | VxStack l => slwf kinds l
    | VxAdd a b => vxwf kinds a /\ vxwf kinds b /\ vxsize a = vxsize b
    | VxScale p e => vxwf kinds p /\ sxwf kinds e
    | ExDir d _ => kinds (dv_id d) = KDir /\ dv_dim d = 2%nat
    | ExRot _ r p => rxwf kinds r /\ vxwf kinds p /\ vxsize p = 3%nat
    | ExMat _ d B p => kinds (dv_id d) = KMat (dv_dim d) B /\ vxwf kinds p /\ vxsize p = 3%nat
    | ExCross a b | ExSub a b | ExElem a b => vxwf kinds a /\ vxwf kinds b /\ vxsize a = 3%nat /\ vxsize b = 3%nat
    | ExSubC a _ | ExNeg a => vxwf kinds a /\ vxsize a = 3%nat
    | ExTrans t => txwf kinds t
    | ExPar r => rxwf kinds r
    | ExHom h => hxwf kinds h
    end
  with slwf (kinds : nat -> kind) (l : sl) : Prop := match l with XNil => True | XCons a l' => sxwf kinds a /\ slwf kinds l' end
  with rxwf (kinds : nat -> kind) (r : rx) : Prop :=
    match r with
    | RxVar d => kinds (dv_id d) = KRot /\ dv_dim d = 3%nat
    | RxConst C => is_rot C
    | RxMul _ a b => rxwf kinds a /\ rxwf kinds b
    | RxInv _ a => rxwf kinds a
    | RxOfT t => txwf kinds t
    | RxAxis axis e => (axis < 3)%nat /\ sxwf kinds e
    end
  with txwf (kinds : nat -> kind) (t : tx) : Prop :=
    match t with
    | TxRT r p => rxwf kinds r /\ vxwf kinds p /\ vxsize p = 3%nat
    | TxR r => rxwf kinds r
    | TxT p => vxwf kinds p /\ vxsize p = 3%nat
    | TxMul _ a b => txwf kinds a /\ txwf kinds b
    | TxInv _ a => txwf kinds a
    | TxConst T => rigid T
    end
  with hxwf (kinds : nat -> kind) (h : hx) : Prop :=
    match h with
    | HxPoint d => kinds (dv_id d) = KHom /\ dv_dim d = 3%nat
    | HxConst _ => True
    | HxOfE p => vxwf kinds p /\ vxsize p = 3%nat
    | HxMul _ t h => txwf kinds t /\ hxwf kinds h
    end.

  (* where the scalar operations are differentiable and the implementation does not use a series *)
  Definition udom (o : uop) (x : R) : Prop :=
    match o with USqrt | ULog => 0 < x | UAcos => -1 < x < 1 | UAcosSq => -1 < x < 1 /\ eps <= (x - 1) * (x - 1) | UPow k => x <> 0 \/ (1 <= k)%Z | _ => True end.
  Definition bdom (o : bop) (x y : R) : Prop := match o with BMul => True | BDiv => y <> 0 | BAtan2 => x <> 0 \/ 0 < y end.
  Fixpoint sxdom (X : kinematics) (par_dom : mat R -> Prop) (e : sx) (s : state) : Prop :=
    match e with
    | XVar _ | XConst _ => True
    | XUn o a => sxdom X par_dom a s /\ forall x, sxval X a s = Ok x -> udom o x
    | XBin o a b => sxdom X par_dom a s /\ sxdom X par_dom b s /\ forall x y, sxval X a s = Ok x -> sxval X b s = Ok y -> bdom o x y
    | XAdd a b _ => sxdom X par_dom a s /\ sxdom X par_dom b s
    | XComp v _ => vxdom X par_dom v s
    end
  with vxdom (X : kinematics) (par_dom : mat R -> Prop) (v : vx) (s : state) : Prop :=
    match v with
    | VxVar _ | VxConst _ _ | ExDir _ _ => True
    | VxStack l => sldom X par_dom l s
    | VxAdd a b | ExCross a b | ExSub a b | ExElem a b => vxdom X par_dom a s /\ vxdom X par_dom b s
    | VxScale p e => vxdom X par_dom p s /\ sxdom X par_dom e s
    | ExRot _ r p => rxdom X par_dom r s /\ vxdom X par_dom p s
    | ExMat _ _ _ p => vxdom X par_dom p s
    | ExSubC a _ | ExNeg a => vxdom X par_dom a s
    | ExTrans t => txdom X par_dom t s
    | ExPar r => rxdom X par_dom r s /\ forall C, rxval X r s = Ok C -> par_dom C
    | ExHom h => hxdom X par_dom h s /\ forall x, hxval X h s = Ok x -> x 3%nat <> 0
    end
  with sldom (X : kinematics) (par_dom : mat R -> Prop) (l : sl) (s : state) : Prop := match l with XNil => True | XCons a l' => sxdom X par_dom a s /\ sldom X par_dom l' s end
  with rxdom (X : kinematics) (par_dom : mat R -> Prop) (r : rx) (s : state) : Prop :=
    match r with RxVar _ | RxConst _ => True | RxMul _ a b => rxdom X par_dom a s /\ rxdom X par_dom b s | RxInv _ a => rxdom X par_dom a s | RxOfT t => txdom X par_dom t s | RxAxis _ e => sxdom X par_dom e s end
  with txdom (X : kinematics) (par_dom : mat R -> Prop) (t : tx) (s : state) : Prop :=
    match t with TxRT r p => rxdom X par_dom r s /\ vxdom X par_dom p s | TxR r => rxdom X par_dom r s | TxT p => vxdom X par_dom p s | TxMul _ a b => txdom X par_dom a s /\ txdom X par_dom b s | TxInv _ a => txdom X par_dom a s | TxConst _ => True end
  with hxdom (X : kinematics) (par_dom : mat R -> Prop) (h : hx) (s : state) : Prop :=
    match h with HxPoint _ | HxConst _ => True | HxOfE p => vxdom X par_dom p s | HxMul _ t h => txdom X par_dom t s /\ hxdom X par_dom h s end.

(* getDesignVariables *)
Fixpoint sxdvs (e : sx) : list dvr :=
  match e with XVar d => [d] | XConst _ => [] | XUn _ a => sxdvs a | XBin _ a b | XAdd a b _ => sxdvs a ++ sxdvs b | XComp v _ => vxdvs v end
with vxdvs (v : vx) : list dvr :=
  match v with
  | VxVar d | ExDir d _ => [d]
  | VxConst _ _ => []
  | VxStack l => sldvs l
  | VxAdd a b | ExCross a b | ExSub a b | ExElem a b => vxdvs a ++ vxdvs b
  | VxScale p e => vxdvs p ++ sxdvs e
  | ExRot _ r p => rxdvs r ++ vxdvs p
  | ExMat _ d _ p => (if (dv_dim d =? 0)%nat then [] else [d]) ++ vxdvs p
  | ExSubC a _ | ExNeg a => vxdvs a
  | ExTrans t => txdvs t
  | ExPar r => rxdvs r
  | ExHom h => hxdvs h
  end
with sldvs (l : sl) : list dvr := match l with XNil => [] | XCons a l' => sxdvs a ++ sldvs l' end
with rxdvs (r : rx) : list dvr :=
  match r with RxVar d => [d] | RxConst _ => [] | RxMul _ a b => rxdvs a ++ rxdvs b | RxInv _ a => rxdvs a | RxOfT t => txdvs t | RxAxis _ e => sxdvs e end
with txdvs (t : tx) : list dvr :=
  match t with TxRT r p => rxdvs r ++ vxdvs p | TxR r => rxdvs r | TxT p => vxdvs p | TxMul _ a b => txdvs a ++ txdvs b | TxInv _ a => txdvs a | TxConst _ => [] end
with hxdvs (h : hx) : list dvr :=
  match h with HxPoint d => [d] | HxConst _ => [] | HxOfE p => vxdvs p | HxMul _ t h => txdvs t ++ hxdvs h end.

(* the nesting depth, and the greatest dimension in the expression: what the chain-rule stack needs room for *)
Fixpoint sxdepth (e : sx) : nat :=
  match e with XVar _ | XConst _ => 0 | XUn _ a => S (sxdepth a) | XBin _ a b | XAdd a b _ => S (Nat.max (sxdepth a) (sxdepth b)) | XComp v _ => S (vxdepth v) end
with vxdepth (v : vx) : nat :=
  match v with
  | VxVar _ | ExDir _ _ | VxConst _ _ => 0
  | VxStack l => S (sldepth l)
  | VxAdd a b | ExCross a b | ExSub a b | ExElem a b => S (Nat.max (vxdepth a) (vxdepth b))
  | VxScale p e => S (Nat.max (vxdepth p) (sxdepth e))
  | ExRot _ r p => S (Nat.max (rxdepth r) (vxdepth p))
  | ExMat _ _ _ p => S (vxdepth p)
  | ExSubC a _ | ExNeg a => S (vxdepth a)
  | ExTrans t => S (txdepth t)
  | ExPar r => S (rxdepth r)
  | ExHom h => S (hxdepth h)
  end
with sldepth (l : sl) : nat := match l with XNil => 0 | XCons a l' => Nat.max (sxdepth a) (sldepth l') end
with rxdepth (r : rx) : nat :=
  match r with RxVar _ | RxConst _ => 0 | RxMul _ a b => S (Nat.max (rxdepth a) (rxdepth b)) | RxInv _ a => S (rxdepth a) | RxOfT t => S (txdepth t) | RxAxis _ e => S (sxdepth e) end
with txdepth (t : tx) : nat :=
  match t with TxRT r p => S (Nat.max (rxdepth r) (vxdepth p)) | TxR r => S (rxdepth r) | TxT p => S (vxdepth p) | TxMul _ a b => S (Nat.max (txdepth a) (txdepth b)) | TxInv _ a => S (txdepth a) | TxConst _ => 0 end
with hxdepth (h : hx) : nat :=
  match h with HxPoint _ | HxConst _ => 0 | HxOfE p => S (vxdepth p) | HxMul _ t h => S (Nat.max (txdepth t) (hxdepth h)) end.
Fixpoint sxwidth (e : sx) : nat :=
  match e with XVar _ | XConst _ => 6 | XUn _ a => sxwidth a | XBin _ a b | XAdd a b _ => Nat.max (sxwidth a) (sxwidth b) | XComp v _ => vxwidth v end
with vxwidth (v : vx) : nat :=
  match v with
  | VxVar d | ExDir d _ => Nat.max 6 (dv_dim d)
  | VxConst n _ => Nat.max 6 n
  | VxStack l => Nat.max (sllen l) (slwidth l)
  | VxAdd a b | ExCross a b | ExSub a b | ExElem a b => Nat.max (vxwidth a) (vxwidth b)
  | VxScale p e => Nat.max (vxwidth p) (sxwidth e)
  | ExRot _ r p => Nat.max (rxwidth r) (vxwidth p)
  | ExMat _ _ _ p => vxwidth p
  | ExSubC a _ | ExNeg a => vxwidth a
  | ExTrans t => txwidth t
  | ExPar r => rxwidth r
  | ExHom h => hxwidth h
  end
with slwidth (l : sl) : nat := match l with XNil => 6 | XCons a l' => Nat.max (sxwidth a) (slwidth l') end
with rxwidth (r : rx) : nat :=
  match r with RxVar _ | RxConst _ => 6 | RxMul _ a b => Nat.max (rxwidth a) (rxwidth b) | RxInv _ a => rxwidth a | RxOfT t => txwidth t | RxAxis _ e => sxwidth e end
with txwidth (t : tx) : nat :=
  match t with TxRT r p => Nat.max (rxwidth r) (vxwidth p) | TxR r => rxwidth r | TxT p => vxwidth p | TxMul _ a b => Nat.max (txwidth a) (txwidth b) | TxInv _ a => txwidth a | TxConst _ => 6 end
with hxwidth (h : hx) : nat :=
  match h with HxPoint _ | HxConst _ => 6 | HxOfE p => vxwidth p | HxMul _ t h => Nat.max (txwidth t) (hxwidth h) end.
