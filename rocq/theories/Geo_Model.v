(** * Geometric expressions

    aslam_backend_expressions/src: EuclideanExpressionNode.cpp ("E"), RotationExpressionNode.cpp ("R"), TransformationExpressionNode.cpp ("T"),
    HomogeneousExpressionNode.cpp ("H"), RotationQuaternion.cpp ("Q"), EuclideanPoint.cpp ("P"), EuclideanDirection.cpp ("D"), HomogeneousPoint.cpp ("HP"),
    MatrixBasic.cpp ("MB"), TransformationBasic.cpp ("TB"), RotationScalarExpressionNode.cpp ("RS"); implementation/ScalarExpressionNode.hpp ("S"),
    implementation/VectorExpressionNode.hpp ("V"), ScalarExpressionNode.hpp ("Sh").

    Real arithmetic, as in Scalar_Model. Nodes that cache operand values at evaluation (E L30-31, R L62-63, L91, T L54-55, L77, H L58-59) are modelled with
    their caches up to date, that is as after an evaluation at the current values; C53 is about the caches. sm::kinematics is not part of the
    repository: its functions are the fields of [kinematics], or written out where they are plain formulas (crossMx, boxMinus, boxTimes, fromHomogeneous).
    A rotation design variable is represented by its matrix _C. *)
From Coq Require Import Arith Lia List ZArith Bool Reals.
From Verif Require Import Lib_Ring Lib_Real Lib_Res MatrixStack_Model DesignVar_Base Jacobian_Model Scalar_Model.
Import ListNotations.
Local Open Scope R_scope.

(** ** Formulas of sm::kinematics *)
(* crossMx, as called in E L38, L108-109, L270 and TB L38 *)
Definition crossm (a : vec R) : mat R := fun i j =>
  match i, j with
  | 0%nat, 1%nat => - a 2%nat | 0%nat, 2%nat => a 1%nat
  | 1%nat, 0%nat => a 2%nat | 1%nat, 2%nat => - a 0%nat
  | 2%nat, 0%nat => - a 1%nat | 2%nat, 1%nat => a 0%nat
  | _, _ => 0 end.
(* the matrices _C of Q L44-47 and D L54-57 and _A of MB L51-53 inside the state, entry (r, c) at 3 r + c *)
Definition m3 (v : vec R) : mat R := fun r c => v (3 * r + c)%nat.
(* topLeftCorner<3,3>: R L118 *)
Definition rot_part (T : mat R) : mat R := T.
(* topRightCorner<3,1>: E L264 *)
Definition trans_part (T : mat R) : vec R := fun i => T i 3%nat.
(* the 4x4 matrix with a rotation and a translation: TB L19-25 *)
Definition mk_T (C : mat R) (t : vec R) : mat R := fun i j => if (i <? 3)%nat then if (j <? 3)%nat then C i j else t i else if (j <? 3)%nat then 0 else 1.
(* boxTimes, as called in T L61, L83: the 6x6 matrix [C, - t^x C; 0, C] *)
Definition boxTimes (T : mat R) : mat R := fun i j =>
  if (i <? 3)%nat then if (j <? 3)%nat then T i j else - mmul 3 (crossm (trans_part T)) T i (j - 3)%nat else if (j <? 3)%nat then 0 else T (i - 3)%nat (j - 3)%nat.
(* boxMinus, as called in H L66: the 4x6 matrix [p3 I, p^x; 0, 0] *)
Definition boxMinus (p : vec R) : mat R := fun i j => if (i <? 3)%nat then if (j <? 3)%nat then p 3%nat * delta i j else crossm p i (j - 3)%nat else 0.
(* fromHomogeneous and its 3x4 Jacobian, as called in E L315, L321 *)
Definition fromHom (p : vec R) : res (vec R) := if Req_EM_T (p 3%nat) 0 then UB else Ok (fun i => p i / p 3%nat).
(* same code: E L315, L321 *)
Definition fromHomJ (p : vec R) : res (mat R) := if Req_EM_T (p 3%nat) 0 then UB else Ok (fun i j => if (j <? 3)%nat then / p 3%nat * delta i j else - (p i / (p 3%nat * p 3%nat))).

(** ** Functions of sm::kinematics and Eigen that are not written out
    Called in Q L35-36, HP L30, L47, D L35-37, E L291, L295-296, T L77. *)
Record kinematics := {
  rot_update : vec R -> nat -> R -> vec R;      (* quat2r(updateQuat(q, h e_j)) as a function of quat2r(q) *)
  hom_update : vec R -> nat -> R -> vec R;      (* updateQuat(p, h e_j) *)
  hom_jac : vec R -> mat R;                     (* quatInvS(p) *)
  ypr : nat -> R -> mat R;                      (* EulerAnglesYawPitchRoll::parametersToRotationMatrix(0, h, 0), (0, 0, h) *)
  rot_params : mat R -> vec R;                  (* rotationMatrixToParameters *)
  rot_params_jac : mat R -> mat R;              (* the inverse of parametersToSMatrix at these parameters *)
  inv4 : mat R -> mat R                         (* Eigen: inverse of a 4x4 matrix *)
}.

(** ** Design variables *)
(* P L7-32 and DesignVariableVector, Scalar: KVec; Q L7-37: KRot; HP L7-32: KHom; D L7-38: KDir; MB L15-45: KMat, a MatrixBasic with minimal dimension n and update basis B (9 x n) *)
Inductive kind : Type := KVec | KRot | KHom | KDir | KMat (n : nat) (B : mat R).
(* update with h e_j: P L29-30 and Scalar, DesignVariableVector; Q L35-36; HP L30; D L35-37; MB L41-44 (B d, column by column) *)
Definition update_value (X : kinematics) (k : kind) (v : vec R) (j : nat) (h : R) : vec R :=
  match k with
  | KVec => fun i => if (i =? j)%nat then v i + h else v i
  | KRot => rot_update X v j h
  | KHom => hom_update X v j h
  | KDir => fun i => if (i <? 9)%nat then mmul 3 (m3 v) (mtr (ypr X j h)) (i / 3)%nat (i mod 3)%nat else v i
  | KMat _ B => fun i => if (i <? 9)%nat then v i + h * B (i mod 3 * 3 + i / 3)%nat j else v i
  end.
(* the state after update of one design variable: P, Q, HP, D, MB as above *)
(* same code: P L29-30, Q L35-36, HP L30, D L35-37, MB L41-44 *)
Definition gperturb (X : kinematics) (kinds : nat -> kind) (s : state) (d : dvr) (j : nat) (h : R) : state :=
  fun id => if (id =? dv_id d)%nat then update_value X (kinds id) (s id) j h else s id.

(** ** Scalar operations: the node classes of S L53-234 and L29-51, L142-158 *)
Inductive uop : Type := UNeg | USqrt | ULog | UExp | UAtan | UTanh | UAcos | UAcosSq | USig (height scale shift : R) | UPow (k : Z) | USin | UCos.
(* same code: S L53-234 and L29-51, L142-158 *)
Inductive bop : Type := BMul | BDiv | BAtan2.
(* S L53-234, see Scalar_Model *)
Definition uval (o : uop) (x : R) : res R :=
  match o with
  | UNeg => Ok (- x)
  | USqrt => do x <- need_pos x; Ok (sqrt x)
  | ULog => do x <- need_pos x; Ok (ln x)
  | UExp => Ok (exp x)
  | UAtan => Ok (atan x)
  | UTanh => Ok (tanh x)
  | UAcos => if Rle_dec (-1) x then if Rle_dec x 1 then Ok (acos x) else Throw else Throw
  | UAcosSq => if Rle_dec x 1 then if Rle_dec (-1) x then Ok (acos x * acos x) else Throw else Throw
  | USig hh sc sh => Ok (hh * (1/2) * (1 + tanh (- sc * (x - sh) * (1/2))))
  | UPow k => fpow x k
  | USin => Ok (sin x)
  | UCos => Ok (cos x)
  end.
(* the factor applied to the operand's Jacobian: S L58-234 *)
Definition ufac (o : uop) (x : R) : res R :=
  match o with
  | UNeg => Ok (-1)
  | USqrt => do r <- fsqrt x; fdiv 1 (2 * r)
  | ULog => fdiv 1 x
  | UExp => Ok (exp x)
  | UAtan => fdiv 1 (1 + x * x)
  | UTanh => Ok (1 - tanh x * tanh x)
  | UAcos => if Rle_dec x 1 then do r <- fsqrt (1 - x * x); fdiv (-1) r else Throw
  | UAcosSq => if Rlt_dec ((x - 1) * (x - 1)) eps then Ok (-2 + 2 / 3 * (x - 1)) else do r <- fsqrt (1 - x * x); fdiv (-2 * acos x) r
  | USig hh sc sh => do t <- fdiv 1 (cosh (1/2 * sc * (sh - x))); Ok (- (1/4) * hh * sc * t * t)
  | UPow k => do t <- fpow x (k - 1); Ok (IZR k * t)
  | USin => Ok (cos x)
  | UCos => Ok (- sin x)
  end.
(* S L29-32, L40-43, L142-146 *)
Definition bval (o : bop) (x y : R) : res R := match o with BMul => Ok (x * y) | BDiv => fdiv x y | BAtan2 => Ok (atan2 x y) end.
(* S L34-38, L45-51, L148-158 *)
Definition bfac (o : bop) (x y : R) : res (R * R) :=
  match o with
  | BMul => Ok (y, x)
  | BDiv => do r <- fdiv 1 y; Ok (r, - x * r * r)
  | BAtan2 => do f <- fdiv 1 (x * x + y * y); Ok (y * f, - x * f)
  end.

(** ** Expressions
    One constructor per node class. Nodes that cache operand values carry a number that identifies the node object. *)
(* the node classes named at the constructors; the files are those above *)
(* ScalarExpressionNode.hpp L56-319 *)
Inductive sx : Type :=
| XVar (d : dvr) | XConst (c : R) | XUn (o : uop) (a : sx) | XBin (o : bop) (a b : sx) | XAdd (a b : sx) (m : R) | XComp (v : vx) (i : nat)
with vx : Type :=
| VxVar (d : dvr)                     (* EuclideanPoint, MappedEuclideanPoint, DesignVariableVector *)
| VxConst (n : nat) (v : vec R)
| VxStack (l : sl)
| VxAdd (a b : vx)                    (* VectorExpressionNodeAddVector, EuclideanExpressionNodeAddEuclidean *)
| VxScale (p : vx) (s : sx)           (* VectorExpressionNodeScalarMultiply, EuclideanExpressionNodeScalarMultiply *)
| ExDir (d : dvr) (mag : R)           (* EuclideanDirection *)
| ExRot (n : nat) (r : rx) (p : vx)             (* EuclideanExpressionNodeMultiply *)
| ExMat (n : nat) (d : dvr) (B : mat R) (p : vx) (* EuclideanExpressionNodeMatrixMultiply with a MatrixBasic *)
| ExCross (a b : vx) | ExSub (a b : vx) | ExSubC (a : vx) (c : vec R) | ExNeg (a : vx)
| ExTrans (t : tx)                    (* EuclideanExpressionNodeTranslation *)
| ExPar (r : rx)                      (* EuclideanExpressionNodeRotationParameters *)
| ExHom (h : hx)                      (* EuclideanExpressionNodeFromHomogeneous *)
| ExElem (a b : vx)
with sl : Type := XNil | XCons (a : sx) (l : sl)
with rx : Type :=
| RxVar (d : dvr) | RxConst (C : mat R) | RxMul (n : nat) (a b : rx) | RxInv (n : nat) (a : rx) | RxOfT (t : tx) | RxAxis (axis : nat) (s : sx)
with tx : Type :=
| TxRT (r : rx) (p : vx) | TxR (r : rx) | TxT (p : vx)     (* TransformationBasic with both parts, without translation, without rotation *)
| TxMul (n : nat) (a b : tx) | TxInv (n : nat) (a : tx) | TxConst (T : mat R)
with hx : Type :=
| HxPoint (d : dvr) | HxConst (p : vec R) | HxOfE (p : vx) | HxMul (n : nat) (t : tx) (h : hx).

(* V L11-30: the number of stacked components; the size of a vector expression *)
Fixpoint sllen (l : sl) : nat := match l with XNil => 0 | XCons _ l' => S (sllen l') end.
(* same code: V L11-30 *)
Fixpoint vxsize (v : vx) : nat :=
  match v with VxVar d => dv_dim d | VxConst n _ => n | VxStack l => sllen l | VxAdd a _ => vxsize a | VxScale p _ => vxsize p | _ => 3 end.

(* RS L14-26 *)
Definition axis_rot (axis : nat) (x : R) : mat R := fun i j =>
  if (i =? axis)%nat && (j =? axis)%nat then 1
  else if (i =? (axis + 1) mod 3)%nat && (j =? (axis + 1) mod 3)%nat then cos x
  else if (i =? (axis + 2) mod 3)%nat && (j =? (axis + 2) mod 3)%nat then cos x
  else if (i =? (axis + 1) mod 3)%nat && (j =? (axis + 2) mod 3)%nat then - sin x
  else if (i =? (axis + 2) mod 3)%nat && (j =? (axis + 1) mod 3)%nat then sin x
  else 0.

  (* evaluate, toRotationMatrix, toTransformationMatrix, toHomogeneous *)
  Fixpoint sxval (X : kinematics) (e : sx) (s : state) : res R :=
    match e with
    | XVar d => Ok (s (dv_id d) 0%nat)
    | XConst c => Ok c
    | XUn o a => do x <- sxval X a s; uval o x
    | XBin o a b => do x <- sxval X a s; do y <- sxval X b s; bval o x y
    | XAdd a b m => do x <- sxval X a s; do y <- sxval X b s; Ok (x + m * y)
    | XComp v i => do x <- vxval X v s; Ok (x i)
    end
  with vxval (X : kinematics) (v : vx) (s : state) : res (vec R) :=
    match v with
    | VxVar d => Ok (s (dv_id d))                                                                (* P L40-43 *)
    | VxConst _ x => Ok x
    | VxStack l => slval X l s                                                                     (* V L39-48 *)
    | VxAdd a b => do x <- vxval X a s; do y <- vxval X b s; Ok (fun i => x i + y i)                 (* V L74-76, E L131-134 *)
    | VxScale p e => do x <- vxval X p s; do y <- sxval X e s; Ok (fun i => x i * y)                 (* V L100-103, E L241-244 *)
    | ExDir d mag => Ok (fun i => mag * m3 (s (dv_id d)) i 2%nat)                                (* D L54-57 *)
    | ExRot _ r p => do C <- rxval X r s; do x <- vxval X p s; Ok (mvmul 3 C x)                        (* E L28-34 *)
    | ExMat _ d _ p => do x <- vxval X p s; Ok (mvmul 3 (m3 (s (dv_id d))) x)                        (* E L64-70, MB L51-53 *)
    | ExCross a b => do x <- vxval X a s; do y <- vxval X b s; Ok (mvmul 3 (crossm x) y)             (* E L101-104 *)
    | ExSub a b => do x <- vxval X a s; do y <- vxval X b s; Ok (fun i => x i - y i)                 (* E L161-164 *)
    | ExSubC a c => do x <- vxval X a s; Ok (fun i => x i - c i)                                   (* E L188-191 *)
    | ExNeg a => do x <- vxval X a s; Ok (fun i => - x i)                                          (* E L213-216 *)
    | ExTrans t => do T <- txval X t s; Ok (trans_part T)                                          (* E L263-265 *)
    | ExPar r => do C <- rxval X r s; Ok (rot_params X C)                                          (* E L290-292 *)
    | ExHom h => do x <- hxval X h s; fromHom x                                                    (* E L314-316 *)
    | ExElem a b => do x <- vxval X a s; do y <- vxval X b s; Ok (fun i => x i * y i)                (* E L344-347 *)
    end
  with slval (X : kinematics) (l : sl) (s : state) : res (vec R) :=
    match l with
    | XNil => Ok (fun _ => 0)
    | XCons a l' => do x <- sxval X a s; do y <- slval X l' s; Ok (fun i => match i with O => x | S i' => y i' end)
    end
  with rxval (X : kinematics) (r : rx) (s : state) : res (mat R) :=
    match r with
    | RxVar d => Ok (m3 (s (dv_id d)))                                                           (* Q L44-47 *)
    | RxConst C => Ok C                                                                          (* R L35-37 *)
    | RxMul _ a b => do A <- rxval X a s; do B <- rxval X b s; Ok (mmul 3 A B)                         (* R L61-65 *)
    | RxInv _ a => do A <- rxval X a s; Ok (mtr A)                                                   (* R L89-93 *)
    | RxOfT t => do T <- txval X t s; Ok (rot_part T)                                              (* R L117-119 *)
    | RxAxis axis e => do x <- sxval X e s; Ok (axis_rot axis x)                                   (* RS L14-26 *)
    end
  with txval (X : kinematics) (t : tx) (s : state) : res (mat R) :=
    match t with
    | TxRT r p => do C <- rxval X r s; do x <- vxval X p s; Ok (mk_T C x)                            (* TB L17-26 *)
    | TxR r => do C <- rxval X r s; Ok (mk_T C (fun _ => 0))
    | TxT p => do x <- vxval X p s; Ok (mk_T mid x)
    | TxMul _ a b => do A <- txval X a s; do B <- txval X b s; Ok (mmul 4 A B)                         (* T L52-57 *)
    | TxInv _ a => do A <- txval X a s; Ok (inv4 X A)                                                (* T L75-79 *)
    | TxConst T => Ok T                                                                          (* T L95 *)
    end
  with hxval (X : kinematics) (h : hx) (s : state) : res (vec R) :=
    match h with
    | HxPoint d => Ok (s (dv_id d))                                                              (* HP L40-43 *)
    | HxConst p => Ok p                                                                          (* H L83 *)
    | HxOfE p => do x <- vxval X p s; Ok (fun i => if (i <? 3)%nat then x i else 1)                (* H L98-100 *)
    | HxMul _ t h => do T <- txval X t s; do x <- hxval X h s; Ok (mvmul 4 T x)                        (* H L56-62 *)
    end.

  (* the 3x9 Jacobian of A p with respect to the entries of A, column by column: E L74-75 *)
  Definition mat_jac (x : vec R) : mat R := fun i j => x (j / 3)%nat * delta i (j mod 3)%nat.
  (* evaluateJacobians *)
  Fixpoint sxjac (X : kinematics) (e : sx) (s : state) : res (list (@cop R)) :=
    match e with
    | XVar d => Ok [CAddId d]
    | XConst _ => Ok []
    | XUn o a => do x <- sxval X a s; do f <- ufac o x; do ja <- sxjac X a s; Ok (scope (CApplyS f) ja)
    | XBin o a b => do x <- sxval X a s; do y <- sxval X b s; do f <- bfac o x y; do ja <- sxjac X a s; do jb <- sxjac X b s; Ok (scope (CApplyS (fst f)) ja ++ scope (CApplyS (snd f)) jb)
    | XAdd a b m => do ja <- sxjac X a s; do jb <- sxjac X b s; Ok (ja ++ scope (CApplyS m) jb)
    | XComp v i => do jv <- vxjac X v s; Ok (scope (CApply (unit_row (vxsize v) i)) jv)
    end
  with vxjac (X : kinematics) (v : vx) (s : state) : res (list (@cop R)) :=
    match v with
    | VxVar d => Ok [CAddId d]                                                                   (* P L45-48 *)
    | VxConst _ _ => Ok []
    | VxStack l => sljac X (sllen l) 0 l s                                                         (* V L50-57 *)
    | VxAdd a b => do ja <- vxjac X a s; do jb <- vxjac X b s; Ok (ja ++ jb)                         (* V L78-83, E L136-140 *)
    | VxScale p e =>                                                                             (* V L105-110, E L246-250 *)
        do y <- sxval X e s; do jp <- vxjac X p s; do x <- vxval X p s; do je <- sxjac X e s;
        Ok (scope (CApplyS y) jp ++ scope (CApply (mkD (vxsize p) 1 (fun r _ => x r))) je)
    | ExDir d mag =>                                                                             (* D L60-67 *)
        let C := m3 (s (dv_id d)) in Ok [CAdd d (mkD 3 2 (fun i j => match j with O => - C i 0%nat * mag | _ => C i 1%nat * mag end))]
    | ExRot _ r p =>                                                                               (* E L36-40 *)
        do C <- rxval X r s; do x <- vxval X p s; do jr <- rxjac X r s; do jp <- vxjac X p s;
        Ok (scope (CApply (mkD 3 3 (crossm (mvmul 3 C x)))) jr ++ scope (CApply (mkD 3 3 C)) jp)
    | ExMat _ d B p =>                                                                             (* E L72-78, MB L55-59 *)
        do x <- vxval X p s; do jp <- vxjac X p s;
        Ok ((if (dv_dim d =? 0)%nat then [] else [CAdd d (mkD 3 (dv_dim d) (mmul 9 (mat_jac x) B))]) ++ scope (CApply (mkD 3 3 (m3 (s (dv_id d))))) jp)
    | ExCross a b =>                                                                             (* E L106-110 *)
        do x <- vxval X a s; do y <- vxval X b s; do ja <- vxjac X a s; do jb <- vxjac X b s;
        Ok (scope (CApply (mkD 3 3 (fun i j => - crossm y i j))) ja ++ scope (CApply (mkD 3 3 (crossm x))) jb)
    | ExSub a b => do ja <- vxjac X a s; do jb <- vxjac X b s; Ok (ja ++ scope (CApplyS (-1)) jb)    (* E L166-170 *)
    | ExSubC a _ => vxjac X a s                                                                    (* E L193-196 *)
    | ExNeg a => do ja <- vxjac X a s; Ok (scope (CApplyS (-1)) ja)                                (* E L218-221 *)
    | ExTrans t =>                                                                               (* E L267-272 *)
        do T <- txval X t s; do jt <- txjac X t s;
        Ok (scope (CApply (mkD 3 6 (fun i j => if (j <? 3)%nat then delta i j else crossm (trans_part T) i (j - 3)%nat))) jt)
    | ExPar r => do C <- rxval X r s; do jr <- rxjac X r s; Ok (scope (CApply (mkD 3 3 (rot_params_jac X C))) jr)   (* E L294-298 *)
    | ExHom h => do x <- hxval X h s; do J <- fromHomJ x; do jh <- hxjac X h s; Ok (scope (CApply (mkD 3 4 J)) jh)  (* E L318-323 *)
    | ExElem a b =>                                                                              (* E L349-353 *)
        do x <- vxval X a s; do y <- vxval X b s; do ja <- vxjac X a s; do jb <- vxjac X b s;
        Ok (scope (CApply (mkD 3 3 (fun i j => y i * delta i j))) ja ++ scope (CApply (mkD 3 3 (fun i j => x i * delta i j))) jb)
    end
  with sljac (X : kinematics) (n i : nat) (l : sl) (s : state) : res (list (@cop R)) :=
    match l with
    | XNil => Ok []
    | XCons a l' => do ja <- sxjac X a s; do jl <- sljac X n (S i) l' s; Ok (scope (CApply (unit_col n i)) ja ++ jl)
    end
  with rxjac (X : kinematics) (r : rx) (s : state) : res (list (@cop R)) :=
    match r with
    | RxVar d => Ok [CAddId d]                                                                   (* Q L49-52 *)
    | RxConst _ => Ok []                                                                         (* R L39-40 *)
    | RxMul _ a b => do A <- rxval X a s; do jb <- rxjac X b s; do ja <- rxjac X a s; Ok (scope (CApply (mkD 3 3 A)) jb ++ ja)    (* R L67-70 *)
    | RxInv _ a => do A <- rxval X a s; do ja <- rxjac X a s; Ok (scope (CApply (mkD 3 3 (fun i j => - mtr A i j))) ja)         (* R L95-98 *)
    | RxOfT t => do jt <- txjac X t s; Ok (scope (CApply (mkD 3 6 (fun i j => if (j <? 3)%nat then 0 else delta i (j - 3)%nat))) jt)  (* R L121-125 *)
    | RxAxis axis e => do je <- sxjac X e s; Ok (scope (CApply (mkD 3 1 (fun i _ => - delta i axis))) je)                   (* RS L28-35 *)
    end
  with txjac (X : kinematics) (t : tx) (s : state) : res (list (@cop R)) :=
    match t with
    | TxRT r p =>                                                                                (* TB L28-50 *)
        do x <- vxval X p s; do jr <- rxjac X r s; do jp <- vxjac X p s;
        Ok (scope (CApply (mkD 6 3 (fun i j => if (i <? 3)%nat then - crossm x i j else delta (i - 3)%nat j))) jr ++
            scope (CApply (mkD 6 3 (fun i j => if (i <? 3)%nat then delta i j else 0))) jp)
    | TxR r => do jr <- rxjac X r s; Ok (scope (CApply (mkD 6 3 (fun i j => if (i <? 3)%nat then 0 else delta (i - 3)%nat j))) jr)
    | TxT p => do jp <- vxjac X p s; Ok (scope (CApply (mkD 6 3 (fun i j => if (i <? 3)%nat then delta i j else 0))) jp)
    | TxMul _ a b => do A <- txval X a s; do jb <- txjac X b s; do ja <- txjac X a s; Ok (scope (CApply (mkD 6 6 (boxTimes A))) jb ++ ja)    (* T L59-63 *)
    | TxInv _ a => do A <- txval X a s; do ja <- txjac X a s; Ok (scope (CApply (mkD 6 6 (fun i j => - boxTimes (inv4 X A) i j))) ja)      (* T L81-84 *)
    | TxConst _ => Ok []                                                                         (* T L96 *)
    end
  with hxjac (X : kinematics) (h : hx) (s : state) : res (list (@cop R)) :=
    match h with
    | HxPoint d => Ok [CAdd d (mkD 4 3 (hom_jac X (s (dv_id d))))]                               (* HP L45-48 *)
    | HxConst _ => Ok []                                                                         (* H L84 *)
    | HxOfE p => do jp <- vxjac X p s; Ok (scope (CApply (mkD 4 3 (fun i j => delta i j))) jp)     (* H L102-104 *)
    | HxMul _ t h =>                                                                               (* H L64-68 *)
        do T <- txval X t s; do x <- hxval X h s; do jt <- txjac X t s; do jh <- hxjac X h s;
        Ok (scope (CApply (mkD 4 6 (boxMinus (mvmul 4 T x)))) jt ++ scope (CApply (mkD 4 4 T)) jh)
    end.
