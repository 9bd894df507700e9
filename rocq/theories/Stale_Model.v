(** * Geometric expressions with the values their nodes cache

    Same sources and abbreviations as in Geo_Model. Seven node classes keep operand values in members that evaluation writes and evaluateJacobians reads:
    EuclideanExpressionNodeMultiply (E L11-40), EuclideanExpressionNodeMatrixMultiply (E L44-78), RotationExpressionNodeMultiply (R L54-70),
    RotationExpressionNodeInverse (R L82-98), TransformationExpressionNodeMultiply (T L36-63), TransformationExpressionNodeInverse (T L69-84),
    HomogeneousExpressionNodeMultiply (H L42-68). The members of the node with number n are [cm c n] and [cv c n]; None before they are first written.
    Where the C++ evaluation order of two operands is unspecified (a + b, a * b) the left one comes first here. *)
From Coq Require Import Arith Lia List ZArith Bool Reals.
From Verif Require Import Lib_Ring Lib_Real Lib_Res MatrixStack_Model DesignVar_Base Jacobian_Model Scalar_Model Geo_Model.
Import ListNotations.
Local Open Scope R_scope.

(* _C_lhs, _A_lhs, _C, _T_lhs, _T; _p_rhs (E L47-48, L73-74, R hpp L107-132, H hpp L70-72, T hpp L96) *)
Record cst := { cm : nat -> option (mat R); cv : nat -> option (vec R) }.
(* a computation that reads and writes the members; an exception keeps what was written before *)
(* in the model only: helper *)
Definition M (A : Type) : Type := cst -> res A * cst.
(* in the model only: helper *)
Definition ret {A} (a : A) : M A := fun c => (Ok a, c).
(* in the model only: helper *)
Definition lift {A} (r : res A) : M A := fun c => (r, c).
(* in the model only: helper *)
Definition bnd {A B} (m : M A) (f : A -> M B) : M B := fun c => let (r, c') := m c in match r with Ok a => f a c' | Throw => (Throw, c') | UB => (UB, c') end.
Notation "'do*' x <- e ; f" := (bnd e (fun x => f)) (at level 200, x binder, e at level 100, f at level 200).
(* assignments to the members of node n, and reading them: E L30-31, L66-67, R L62-63, L91, T L54, L77, H L58-59 and E L38-39, L75-77, R L68, L97, T L61, L83, H L66-67 *)
Definition setM (n : nat) (A : mat R) : M unit := fun c => (Ok tt, {| cm := fun k => if (k =? n)%nat then Some A else cm c k; cv := cv c |}).
(* in the model only: helper *)
Definition setV (n : nat) (x : vec R) : M unit := fun c => (Ok tt, {| cm := cm c; cv := fun k => if (k =? n)%nat then Some x else cv c k |}).
(* in the model only: helper *)
Definition getM (n : nat) : M (mat R) := fun c => (match cm c n with Some A => Ok A | None => UB end, c).
(* in the model only: helper *)
Definition getV (n : nat) : M (vec R) := fun c => (match cv c n with Some x => Ok x | None => UB end, c).

(* evaluate, toRotationMatrix, toTransformationMatrix, toHomogeneous; the lines of each node are those given in Geo_Model for sxval, vxval, slval, rxval, txval, hxval *)
Fixpoint sxE (X : kinematics) (e : sx) (s : state) : M R :=
  match e with
  | XVar d => ret (s (dv_id d) 0%nat)
  | XConst c => ret c
  | XUn o a => do* x <- sxE X a s; lift (uval o x)
  | XBin o a b => do* x <- sxE X a s; do* y <- sxE X b s; lift (bval o x y)
  | XAdd a b m => do* x <- sxE X a s; do* y <- sxE X b s; ret (x + m * y)
  | XComp v i => do* x <- vxE X v s; ret (x i)
  end
with vxE (X : kinematics) (v : vx) (s : state) : M (vec R) :=
  match v with
  | VxVar d => ret (s (dv_id d))
  | VxConst _ x => ret x
  | VxStack l => slE X l s
  | VxAdd a b => do* x <- vxE X a s; do* y <- vxE X b s; ret (fun i => x i + y i)
  | VxScale p e => do* x <- vxE X p s; do* y <- sxE X e s; ret (fun i => x i * y)
  | ExDir d mag => ret (fun i => mag * m3 (s (dv_id d)) i 2%nat)
  | ExRot n r p => do* C <- rxE X r s; do* _ <- setM n C; do* x <- vxE X p s; do* _ <- setV n x; ret (mvmul 3 C x)                  (* E L28-34 *)
  | ExMat n d _ p => do* _ <- setM n (m3 (s (dv_id d))); do* x <- vxE X p s; do* _ <- setV n x; ret (mvmul 3 (m3 (s (dv_id d))) x) (* E L64-70 *)
  | ExCross a b => do* x <- vxE X a s; do* y <- vxE X b s; ret (mvmul 3 (crossm x) y)
  | ExSub a b => do* x <- vxE X a s; do* y <- vxE X b s; ret (fun i => x i - y i)
  | ExSubC a c => do* x <- vxE X a s; ret (fun i => x i - c i)
  | ExNeg a => do* x <- vxE X a s; ret (fun i => - x i)
  | ExTrans t => do* T <- txE X t s; ret (trans_part T)
  | ExPar r => do* C <- rxE X r s; ret (rot_params X C)
  | ExHom h => do* x <- hxE X h s; lift (fromHom x)
  | ExElem a b => do* x <- vxE X a s; do* y <- vxE X b s; ret (fun i => x i * y i)
  end
with slE (X : kinematics) (l : sl) (s : state) : M (vec R) :=
  match l with
  | XNil => ret (fun _ => 0)
  | XCons a l' => do* x <- sxE X a s; do* y <- slE X l' s; ret (fun i => match i with O => x | S i' => y i' end)
  end
with rxE (X : kinematics) (r : rx) (s : state) : M (mat R) :=
  match r with
  | RxVar d => ret (m3 (s (dv_id d)))
  | RxConst C => ret C
  | RxMul n a b => do* A <- rxE X a s; do* _ <- setM n A; do* B <- rxE X b s; ret (mmul 3 A B)   (* R L61-65; _C_rhs is written but never read *)
  | RxInv n a => do* A <- rxE X a s; do* _ <- setM n A; ret (mtr A)                              (* R L89-93 *)
  | RxOfT t => do* T <- txE X t s; ret (rot_part T)
  | RxAxis axis e => do* x <- sxE X e s; ret (axis_rot axis x)
  end
with txE (X : kinematics) (t : tx) (s : state) : M (mat R) :=
  match t with
  | TxRT r p => do* C <- rxE X r s; do* x <- vxE X p s; ret (mk_T C x)
  | TxR r => do* C <- rxE X r s; ret (mk_T C (fun _ => 0))
  | TxT p => do* x <- vxE X p s; ret (mk_T mid x)
  | TxMul n a b => do* A <- txE X a s; do* _ <- setM n A; do* B <- txE X b s; ret (mmul 4 A B)   (* T L52-57; _T_rhs is written but never read *)
  | TxInv n a => do* A <- txE X a s; do* _ <- setM n (inv4 X A); ret (inv4 X A)                  (* T L75-79 *)
  | TxConst T => ret T
  end
with hxE (X : kinematics) (h : hx) (s : state) : M (vec R) :=
  match h with
  | HxPoint d => ret (s (dv_id d))
  | HxConst p => ret p
  | HxOfE p => do* x <- vxE X p s; ret (fun i => if (i <? 3)%nat then x i else 1)
  | HxMul n t h => do* T <- txE X t s; do* _ <- setM n T; do* x <- hxE X h s; do* _ <- setV n x; ret (mvmul 4 T x)   (* H L56-62 *)
  end.

(* evaluateJacobians, with the evaluations of operands it contains, in their order; the lines are those given in Geo_Model for sxjac, vxjac, sljac, rxjac, txjac, hxjac *)
Fixpoint sxJ (X : kinematics) (e : sx) (s : state) : M (list (@cop R)) :=
  match e with
  | XVar d => ret [CAddId d]
  | XConst _ => ret []
  | XUn UNeg a => do* ja <- sxJ X a s; ret (scope (CApplyS (-1)) ja)                                           (* S L58-61 *)
  | XUn o a => do* x <- sxE X a s; do* f <- lift (ufac o x); do* ja <- sxJ X a s; ret (scope (CApplyS f) ja)    (* S L68-234 *)
  | XBin BMul a b => do* y <- sxE X b s; do* ja <- sxJ X a s; do* x <- sxE X a s; do* jb <- sxJ X b s; ret (scope (CApplyS y) ja ++ scope (CApplyS x) jb)   (* S L34-38 *)
  | XBin BDiv a b =>                                                                                           (* S L45-51 *)
      do* y <- sxE X b s; do* r <- lift (fdiv 1 y); do* x <- sxE X a s; do* ja <- sxJ X a s; do* jb <- sxJ X b s; ret (scope (CApplyS r) ja ++ scope (CApplyS (- x * r * r)) jb)
  | XBin BAtan2 a b =>                                                                                         (* S L148-158 *)
      do* x <- sxE X a s; do* y <- sxE X b s; do* f <- lift (fdiv 1 (x * x + y * y)); do* ja <- sxJ X a s; do* jb <- sxJ X b s; ret (scope (CApplyS (y * f)) ja ++ scope (CApplyS (- x * f)) jb)
  | XAdd a b m => do* ja <- sxJ X a s; do* jb <- sxJ X b s; ret (ja ++ scope (CApplyS m) jb)
  | XComp v i => do* jv <- vxJ X v s; ret (scope (CApply (unit_row (vxsize v) i)) jv)
  end
with vxJ (X : kinematics) (v : vx) (s : state) : M (list (@cop R)) :=
  match v with
  | VxVar d => ret [CAddId d]
  | VxConst _ _ => ret []
  | VxStack l => slJ X (sllen l) 0 l s
  | VxAdd a b => do* ja <- vxJ X a s; do* jb <- vxJ X b s; ret (ja ++ jb)
  | VxScale p e =>                                                                             (* V L105-110, E L246-250 *)
      do* y <- sxE X e s; do* jp <- vxJ X p s; do* x <- vxE X p s; do* je <- sxJ X e s;
      ret (scope (CApplyS y) jp ++ scope (CApply (mkD (vxsize p) 1 (fun r _ => x r))) je)
  | ExDir d mag => let C := m3 (s (dv_id d)) in ret [CAdd d (mkD 3 2 (fun i j => match j with O => - C i 0%nat * mag | _ => C i 1%nat * mag end))]
  | ExRot n r p =>                                                                             (* E L36-40 *)
      do* C <- getM n; do* x <- getV n; do* jr <- rxJ X r s; do* C' <- getM n; do* jp <- vxJ X p s;
      ret (scope (CApply (mkD 3 3 (crossm (mvmul 3 C x)))) jr ++ scope (CApply (mkD 3 3 C')) jp)
  | ExMat n d B p =>                                                                           (* E L72-78, MB L55-59 *)
      do* x <- getV n; do* A <- getM n; do* jp <- vxJ X p s;
      ret ((if (dv_dim d =? 0)%nat then [] else [CAdd d (mkD 3 (dv_dim d) (mmul 9 (mat_jac x) B))]) ++ scope (CApply (mkD 3 3 A)) jp)
  | ExCross a b =>                                                                             (* E L106-110 *)
      do* y <- vxE X b s; do* ja <- vxJ X a s; do* x <- vxE X a s; do* jb <- vxJ X b s;
      ret (scope (CApply (mkD 3 3 (fun i j => - crossm y i j))) ja ++ scope (CApply (mkD 3 3 (crossm x))) jb)
  | ExSub a b => do* ja <- vxJ X a s; do* jb <- vxJ X b s; ret (ja ++ scope (CApplyS (-1)) jb)
  | ExSubC a _ => vxJ X a s
  | ExNeg a => do* ja <- vxJ X a s; ret (scope (CApplyS (-1)) ja)
  | ExTrans t =>                                                                               (* E L267-272 *)
      do* T <- txE X t s; do* jt <- txJ X t s;
      ret (scope (CApply (mkD 3 6 (fun i j => if (j <? 3)%nat then delta i j else crossm (trans_part T) i (j - 3)%nat))) jt)
  | ExPar r => do* C <- rxE X r s; do* jr <- rxJ X r s; ret (scope (CApply (mkD 3 3 (rot_params_jac X C))) jr)
  | ExHom h => do* x <- hxE X h s; do* J <- lift (fromHomJ x); do* jh <- hxJ X h s; ret (scope (CApply (mkD 3 4 J)) jh)
  | ExElem a b =>                                                                              (* E L349-353 *)
      do* y <- vxE X b s; do* ja <- vxJ X a s; do* x <- vxE X a s; do* jb <- vxJ X b s;
      ret (scope (CApply (mkD 3 3 (fun i j => y i * delta i j))) ja ++ scope (CApply (mkD 3 3 (fun i j => x i * delta i j))) jb)
  end
with slJ (X : kinematics) (n i : nat) (l : sl) (s : state) : M (list (@cop R)) :=
  match l with
  | XNil => ret []
  | XCons a l' => do* ja <- sxJ X a s; do* jl <- slJ X n (S i) l' s; ret (scope (CApply (unit_col n i)) ja ++ jl)
  end
with rxJ (X : kinematics) (r : rx) (s : state) : M (list (@cop R)) :=
  match r with
  | RxVar d => ret [CAddId d]
  | RxConst _ => ret []
  | RxMul n a b => do* A <- getM n; do* jb <- rxJ X b s; do* ja <- rxJ X a s; ret (scope (CApply (mkD 3 3 A)) jb ++ ja)     (* R L67-70 *)
  | RxInv n a => do* A <- getM n; do* ja <- rxJ X a s; ret (scope (CApply (mkD 3 3 (fun i j => - mtr A i j))) ja)          (* R L95-98 *)
  | RxOfT t => do* jt <- txJ X t s; ret (scope (CApply (mkD 3 6 (fun i j => if (j <? 3)%nat then 0 else delta i (j - 3)%nat))) jt)
  | RxAxis axis e => do* je <- sxJ X e s; ret (scope (CApply (mkD 3 1 (fun i _ => - delta i axis))) je)
  end
with txJ (X : kinematics) (t : tx) (s : state) : M (list (@cop R)) :=
  match t with
  | TxRT r p =>                                                                                (* TB L28-50 *)
      do* x <- vxE X p s; do* jr <- rxJ X r s; do* jp <- vxJ X p s;
      ret (scope (CApply (mkD 6 3 (fun i j => if (i <? 3)%nat then - crossm x i j else delta (i - 3)%nat j))) jr ++
           scope (CApply (mkD 6 3 (fun i j => if (i <? 3)%nat then delta i j else 0))) jp)
  | TxR r => do* jr <- rxJ X r s; ret (scope (CApply (mkD 6 3 (fun i j => if (i <? 3)%nat then 0 else delta (i - 3)%nat j))) jr)
  | TxT p => do* jp <- vxJ X p s; ret (scope (CApply (mkD 6 3 (fun i j => if (i <? 3)%nat then delta i j else 0))) jp)
  | TxMul n a b => do* A <- getM n; do* jb <- txJ X b s; do* ja <- txJ X a s; ret (scope (CApply (mkD 6 6 (boxTimes A))) jb ++ ja)  (* T L59-63 *)
  | TxInv n a => do* A <- getM n; do* ja <- txJ X a s; ret (scope (CApply (mkD 6 6 (fun i j => - boxTimes A i j))) ja)              (* T L81-84 *)
  | TxConst _ => ret []
  end
with hxJ (X : kinematics) (h : hx) (s : state) : M (list (@cop R)) :=
  match h with
  | HxPoint d => ret [CAdd d (mkD 4 3 (hom_jac X (s (dv_id d))))]
  | HxConst _ => ret []
  | HxOfE p => do* jp <- vxJ X p s; ret (scope (CApply (mkD 4 3 (fun i j => delta i j))) jp)
  | HxMul n t h =>                                                                             (* H L64-68 *)
      do* T <- getM n; do* x <- getV n; do* jt <- txJ X t s; do* T' <- getM n; do* jh <- hxJ X h s;
      ret (scope (CApply (mkD 4 6 (boxMinus (mvmul 4 T x)))) jt ++ scope (CApply (mkD 4 4 T')) jh)
  end.

(** ** Histories *)
(* an expression of any of the five kinds *)
(* in the model only: helper *)
Inductive anyx : Type := AS (e : sx) | AV (e : vx) | AR (e : rx) | AT (e : tx) | AH (e : hx).
(* the design variables change (update, revertUpdate, setParameters), an expression is evaluated (also by the constructors E L11-14, L44-48, R L54-58, L82-85, H L42-47), Jacobians are evaluated *)
Inductive event : Type := EvState (s : state) | EvValue (e : anyx) | EvJac (e : anyx).
(* the calls of evaluate (E, H, R, T, S, V as above) on any kind of expression, and of evaluateJacobians *)
(* same code: E L11-14, L44-48, R L54-58, L82-85, H L42-47 *)
Definition any_eval (X : kinematics) (e : anyx) (s : state) (c : cst) : cst :=
  match e with AS e => snd (sxE X e s c) | AV e => snd (vxE X e s c) | AR e => snd (rxE X e s c) | AT e => snd (txE X e s c) | AH e => snd (hxE X e s c) end.
(* same code: E L11-14, L44-48, R L54-58, L82-85, H L42-47 *)
Definition any_jac (X : kinematics) (e : anyx) (s : state) : M (list (@cop R)) :=
  match e with AS e => sxJ X e s | AV e => vxJ X e s | AR e => rxJ X e s | AT e => txJ X e s | AH e => hxJ X e s end.
(* one event; the design variables are the state, DesignVariable.cpp L14-47 *)
Definition play1 (X : kinematics) (sc : state * cst) (ev : event) : state * cst :=
  match ev with
  | EvState s => (s, snd sc)
  | EvValue e => (fst sc, any_eval X e (fst sc) (snd sc))
  | EvJac e => (fst sc, snd (any_jac X e (fst sc) (snd sc)))
  end.
(* same code: DesignVariable.cpp L14-47 *)
Definition play (X : kinematics) (h : list event) (sc : state * cst) : state * cst := fold_left (play1 X) h sc.
