(** * What it means for matrix and quaternion expressions to be differentiated correctly *)
From Coq Require Import Arith Lia List ZArith NArith Bool Reals.
From Verif Require Import Lib_Ring Lib_Real Lib_Res Lib_MatInv MatrixStack_Model DesignVar_Base Jacobian_Model Expr_Base Scalar_Model Scalar_Spec MatExpr_Model.
Import ListNotations.
Local Open Scope R_scope.

(* how each design variable is updated: None: the increment is added (G L41-45), Some: unit quaternion (U L23-27) *)
Definition kinds := nat -> option (qmode * geom).
(* design variable d updated by h in direction j *)
Definition pert (X : qkin) (kd : kinds) (s : state) (d : dvr) (j : nat) (h : R) : state :=
  fun id i => if (id =? dv_id d)%nat then
    match kd id with
    | None => if (i =? j)%nat then s id i + h else s id i
    | Some (m, g) => if (i <? 4)%nat then qupdate X m g (s id) (fun k => if (k =? j)%nat then h else 0) i else s id i
    end else s id i.
(* derivative at 0 of a vector, a matrix *)
Definition vtan (n : nat) (f : R -> vec R) (f' : vec R) : Prop := forall i, (i < n)%nat -> derivable_pt_lim (fun h => f h i) 0 (f' i).
Definition mtan (r c : nat) (F : R -> mat R) (T : mat R) : Prop := forall i k, (i < r)%nat -> (k < c)%nat -> derivable_pt_lim (fun h => F h i k) 0 (T i k).

(* what is assumed of the other libraries: derivatives along curves, the identity quaternion, products (real part last, opposite order: p after x is x p), inverses *)
Definition LRT : qmode := mkMode false true.
Record qkin_ok (X : qkin) : Prop := {
  exp_tan : forall v v', vtan 3 v v' -> vtan 4 (fun h => qexp X (v h)) (mvmul 3 (dqexp X (v 0)) v');
  log_tan : forall q q', vtan 4 q q' -> qlogd X (q 0) -> vtan 3 (fun h => qlog X (q h)) (mvmul 4 (dqlog X (q 0)) q');
  exp_zero : forall v, (forall k, (k < 3)%nat -> v k = 0) -> forall i, (i < 4)%nat -> qexp X v i = delta i 3;
  dexp_zero : forall v, (forall k, (k < 3)%nat -> v k = 0) -> forall i k, (i < 4)%nat -> (k < 3)%nat -> dqexp X v i k = delta i k;
  plus_mul : forall p x i, (i < 4)%nat -> mvmul 4 (qplus X p) x i = qmul LRT x p i;
  oplus_mul : forall p x i, (i < 4)%nat -> mvmul 4 (qoplus X p) x i = qmul LRT p x i;
  minv_inv : forall n A, (exists B, inverse n A B) -> inverse n A (minv X n A)
}.

(* sizes fit, as the template arguments enforce; the kind of the design variables is the one of their class *)
Definition un_wf (o : mun) (r c : nat) : Prop := match o with UInverse => r = c | UQInverse _ | UQConj _ | UQImag _ => r = 4%nat /\ c = 1%nat | _ => True end.
Definition bin_wf (o : mbin) (ra ca rb cb : nat) : Prop :=
  match o with
  | BMul => ca = rb | BAdd | BSub => ra = rb /\ ca = cb | BCross => ra = 3%nat /\ rb = 3%nat /\ (ca = 1%nat \/ cb = 1%nat)
  | BQMul _ => ra = 4%nat /\ rb = 4%nat /\ ca = 1%nat /\ cb = 1%nat | BRotate _ => ra = 4%nat /\ rb = 3%nat /\ ca = 1%nat /\ cb = 1%nat
  end.
Fixpoint xwf (kd : kinds) (e : mx) : Prop :=
  match e with
  | XVec d => kd (dv_id d) = None
  | XQuat d m g => kd (dv_id d) = Some (m, g) /\ dv_dim d = 3%nat
  | XConst _ _ _ => True
  | XUn o a => xwf kd a /\ un_wf o (xrows a) (xcols a)
  | XBin o a b => xwf kd a /\ xwf kd b /\ bin_wf o (xrows a) (xcols a) (xrows b) (xcols b)
  | XScaleS a e => xwf kd a /\ sxwf kd e
  | XOfS e => sxwf kd e
  | XExp _ a => xwf kd a /\ xrows a = 3%nat /\ xcols a = 1%nat
  | XLog _ a => xwf kd a /\ xrows a = 4%nat /\ xcols a = 1%nat
  | XExt _ => True
  end
with sxwf (kd : kinds) (e : sx) : Prop :=
  match e with SExt l => l_rows l = 1%nat | SEntry a i k => xwf kd a /\ (i < xrows a)%nat /\ (k < xcols a)%nat | SNorm a => xwf kd a /\ xcols a = 1%nat end.

(* an expression of another kind is differentiated correctly, whatever the chain in force: with the design variables' own updates its value has derivatives Dl and its
   evaluateJacobians contributes them *)
Definition leaf_ok (X : qkin) (kd : kinds) (s : state) (l : leaf) : Prop :=
  exists Dl ops, (forall d j, (j < dv_dim d)%nat -> vtan (l_rows l) (fun h => l_val l (pert X kd s d j h)) (fun i => Dl d i j)) /\
    l_jac l s = Ok ops /\ contributes (l_rows l) (l_width l) (l_depth l) ops Dl /\ (forall x, In x (ops_dvs ops) -> In x (l_dvs l)).

(* the points where the expression is differentiable: inverted matrices stay invertible nearby, inverted quaternions are not zero, logarithms are in the domain *)
Definition un_dom (X : qkin) (kd : kinds) (o : mun) (s : state) (r : nat) (f : state -> mat R) : Prop :=
  match o with
  | UInverse => forall d j, (j < dv_dim d)%nat -> near (fun h => exists B, inverse r (f (pert X kd s d j h)) B)
  | UQInverse _ => vdot 4 (cv (f s)) (cv (f s)) <> 0
  | _ => True
  end.
Fixpoint xdom (X : qkin) (kd : kinds) (s : state) (e : mx) : Prop :=
  match e with
  | XVec _ | XQuat _ _ _ | XConst _ _ _ => True
  | XUn o a => xdom X kd s a /\ un_dom X kd o s (xrows a) (xval X a)
  | XBin _ a b => xdom X kd s a /\ xdom X kd s b
  | XScaleS a e => xdom X kd s a /\ sxdom X kd s e
  | XOfS e => sxdom X kd s e
  | XExp _ a => xdom X kd s a
  | XLog m a => xdom X kd s a /\ qlogd X (to_last m (cv (xval X a s)))
  | XExt l => leaf_ok X kd s l
  end
with sxdom (X : qkin) (kd : kinds) (s : state) (e : sx) : Prop :=
  match e with SExt l => leaf_ok X kd s l | SEntry a _ _ => xdom X kd s a | SNorm a => xdom X kd s a end.

(* the forms of differential that the implementation treats differently *)
Inductive dkind := KId | KPlain | KComp | KMatId | KMat.
Definition kind_of (d : diff) : dkind :=
  match d with DId _ => KId | DNull | DMat _ _ _ => KPlain | DComp _ _ _ _ => KComp | DCompMat _ _ _ (DId _) => KMatId | DCompMat _ _ _ _ => KMat end.
(* the expressions that are handled correctly: a design variable below an operation needs a container with as many rows as the chain has columns, unit quaternions are
   RIGHT_TRANSLATED, exp and log of an expression of another kind occur at the root only *)
Fixpoint fits_in (rows m : nat) (k : dkind) (e : mx) : Prop :=
  match e with
  | XVec _ => (k = KId \/ k = KPlain) \/ rows = m
  | XQuat _ _ g => g = RIGHT_TRANSLATED /\ ((k = KId \/ k = KPlain) \/ rows = m)
  | XConst _ _ _ => True
  | XUn _ a => fits_in rows m KComp a
  | XBin _ a b => fits_in rows m KComp a /\ fits_in rows m KComp b
  | XScaleS a e => fits_in rows m KComp a /\ sfits_in rows e
  | XOfS e => sfits_in rows e
  | XExp _ a | XLog _ a => fits_in rows m (match k with KId => KMatId | _ => KMat end) a
  | XExt _ => k <> KMat
  end
with sfits_in (rows : nat) (e : sx) : Prop :=
  match e with SExt _ => True | SEntry a _ _ => fits_in rows 1 KComp a | SNorm a => fits_in rows (xrows a) KId a end.

(* the room needed on the chain-rule stack *)
Fixpoint xwidth (e : mx) : nat :=
  match e with
  | XVec _ | XQuat _ _ _ | XConst _ _ _ => 0
  | XUn _ a | XExp _ a | XLog _ a => xwidth a
  | XBin _ a b => Nat.max (xwidth a) (xwidth b)
  | XScaleS a e => Nat.max (xwidth a) (Nat.max 1 (sxwidth e))
  | XOfS e => Nat.max 1 (sxwidth e)
  | XExt l => Nat.max (l_rows l) (l_width l)
  end
with sxwidth (e : sx) : nat := match e with SExt l => l_width l | SEntry a _ _ => xwidth a | SNorm a => Nat.max (xrows a) (xwidth a) end.
Fixpoint xdepth (e : mx) : nat :=
  match e with
  | XVec _ | XQuat _ _ _ | XConst _ _ _ => 0
  | XUn _ a | XExp _ a | XLog _ a => xdepth a
  | XBin _ a b => Nat.max (xdepth a) (xdepth b)
  | XScaleS a e => Nat.max (xdepth a) (S (sxdepth e))
  | XOfS e => S (sxdepth e)
  | XExt l => S (l_depth l)
  end
with sxdepth (e : sx) : nat := match e with SExt l => l_depth l | SEntry a _ _ => xdepth a | SNorm a => S (xdepth a) end.

(** ** Differentials *)
Definition linear_map (r c r' c' : nat) (f : mat R -> mat R) : Prop :=
  (forall A B, meq r c A B -> meq r' c' (f A) (f B)) /\ (forall A B, meq r' c' (f (madd A B)) (madd (f A) (f B))) /\ (forall a A, meq r' c' (f (mscale a A)) (mscale a (f A))).
(* differentials composed of linear maps with matching sizes, domain r x c, range m *)
Inductive diff_ok (m : nat) : nat -> nat -> diff -> Prop :=
| dk_null : forall r c, diff_ok m r c DNull
| dk_id : diff_ok m m 1 (DId m)
| dk_comp : forall r c r' c' f next, linear_map r c r' c' f -> diff_ok m r' c' next -> diff_ok m r c (DComp r c f next)
| dk_mat : forall c A, diff_ok m c 1 (DMat m c A)
| dk_cmat : forall r c A next, diff_ok m r 1 next -> diff_ok m c 1 (DCompMat r c A next).

(** ** Operands of other kinds *)
(* the scalar and vector expressions of C51 *)
Definition leaf_of_s (e : sexpr) : leaf := mkLeaf 1 (sdvs e) (fun s _ => match sval e s with Ok v => v | _ => 0 end) (sjac e) (swidth e) (sdepth e).
Definition leaf_of_v (e : vexpr) : leaf := mkLeaf (vsize e) (vdvs e) (fun s i => match vval e s with Ok v => v i | _ => 0 end) (vjac e) (vwidth e) (vdepth e).
(* a vector design variable used through an expression of another kind *)
Definition vleaf (d : dvr) : leaf := mkLeaf (dv_dim d) [d] (fun s => s (dv_id d)) (fun _ => Ok [CAddId d]) (dv_dim d) 0.
(* a curve of operands on which a unary operation is differentiable *)
Definition curve_dom (o : mun) (r : nat) (F : R -> mat R) : Prop :=
  match o with UInverse => near (fun h => exists B, inverse r (F h) B) | UQInverse _ => vdot 4 (cv (F 0)) (cv (F 0)) <> 0 | _ => True end.
