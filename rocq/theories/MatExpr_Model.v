(** * Differentials, matrix expressions and quaternion expressions

    aslam_backend_expressions/include/aslam/backend: Differential.hpp ("D"), OperationResultNodes.hpp ("O"), implementation/GenericMatrixExpression.hpp ("M"),
    implementation/QuaternionExpression.hpp ("Q"), QuaternionExpression.hpp ("Qh"), DesignVariableGenericVector.hpp ("G"), DesignVariableUnitQuaternion.hpp ("U"),
    implementation/VectorExpressionNode.hpp ("V").

    Numbers are real numbers. Sizes that are template arguments are part of the expression. evaluateJacobians is the list of calls made to the container
    (Jacobian_Model). Functions of other libraries (sm::kinematics, Eigen's matrix inverse) are the fields of [qkin]. A matrix is a function of row and column,
    a column vector is column 0. UnitQuaternionExpression's debug check of the norm and the mutable value buffers of the nodes are not modelled. *)
From Coq Require Import Arith Lia List ZArith Bool Reals.
From Verif Require Import Lib_Ring Lib_Real Lib_Res MatrixStack_Model DesignVar_Base Jacobian_Model Scalar_Model.
Import ListNotations.
Local Open Scope R_scope.

(* in the model only: a vector as a matrix *)
Definition col (v : vec R) : mat R := fun i _ => v i.
(* in the model only: a matrix as a vector *)
Definition cv (A : mat R) : vec R := fun i => A i 0%nat.

(** ** Quaternion calculator *)
(* Qh L19-34: QuaternionMode *)
Record qmode := mkMode { real_first : bool; traditional : bool }.
(* Qh L26-29: UnitQuaternionGeometry *)
Inductive geom := LEFT_TRANSLATED | RIGHT_TRANSLATED.
(* Q L21-32 *)
Definition rI (m : qmode) : nat := if real_first m then 0%nat else 3%nat.
(* same code: Q L21-32 *)
Definition iI (m : qmode) : nat := if real_first m then 1%nat else 0%nat.
(* same code: Q L21-32 *)
Definition jI (m : qmode) : nat := if real_first m then 2%nat else 1%nat.
(* same code: Q L21-32 *)
Definition kI (m : qmode) : nat := if real_first m then 3%nat else 2%nat.
(* a vector_t whose elements RIndex, IIndex, JIndex, KIndex have been assigned *)
(* same code: Q L21-32 *)
Definition qvec (m : qmode) (r i j k : R) : vec R :=
  fun n => if (n =? rI m)%nat then r else if (n =? iI m)%nat then i else if (n =? jI m)%nat then j else if (n =? kI m)%nat then k else 0.
(* Q L54-66 *)
Definition qtrad44 (m : qmode) (a b : vec R) : vec R :=
  qvec m
    (a (rI m) * b (rI m) - a (jI m) * b (jI m) - a (kI m) * b (kI m) - a (iI m) * b (iI m))
    (a (iI m) * b (rI m) + a (jI m) * b (kI m) - a (kI m) * b (jI m) + a (rI m) * b (iI m))
    (a (kI m) * b (iI m) - a (iI m) * b (kI m) + a (jI m) * b (rI m) + a (rI m) * b (jI m))
    (a (iI m) * b (jI m) - a (jI m) * b (iI m) + a (kI m) * b (rI m) + a (rI m) * b (kI m)).
(* Q L68-75: first factor without real part *)
Definition qtrad34 (m : qmode) (a b : vec R) : vec R :=
  qvec m
    (- a 1%nat * b (jI m) - a 2%nat * b (kI m) - a 0%nat * b (iI m))
    (a 0%nat * b (rI m) + a 1%nat * b (kI m) - a 2%nat * b (jI m))
    (a 2%nat * b (iI m) - a 0%nat * b (kI m) + a 1%nat * b (rI m))
    (a 0%nat * b (jI m) - a 1%nat * b (iI m) + a 2%nat * b (rI m)).
(* Q L77-84: second factor without real part *)
Definition qtrad43 (m : qmode) (a b : vec R) : vec R :=
  qvec m
    (- a (jI m) * b 1%nat - a (kI m) * b 2%nat - a (iI m) * b 0%nat)
    (a (jI m) * b 2%nat - a (kI m) * b 1%nat + a (rI m) * b 0%nat)
    (a (kI m) * b 0%nat - a (iI m) * b 2%nat + a (rI m) * b 1%nat)
    (a (iI m) * b 1%nat - a (jI m) * b 0%nat + a (rI m) * b 2%nat).
(* Q L86-89: quatMult for sizes 4,4 and 4,3 *)
Definition qmul (m : qmode) (a b : vec R) : vec R := if traditional m then qtrad44 m a b else qtrad44 m b a.
(* same code: Q L86-89 *)
Definition qmul43 (m : qmode) (a b : vec R) : vec R := if traditional m then qtrad43 m a b else qtrad34 m b a.
(* Q L91-95 *)
Definition qconj (m : qmode) (v : vec R) : vec R := fun i => if (iI m <=? i)%nat && (i <? iI m + 3)%nat then v i * -1 else v i.
(* Q L96-100 *)
Definition qinvert (m : qmode) (v : vec R) : vec R := fun i => qconj m v i / vdot 4 (qconj m v) (qconj m v).
(* Q L102-104 *)
Definition qimag (m : qmode) (v : vec R) : vec R := fun i => v (iI m + i)%nat.
(* Q L154-165: convertToOtherMode from the ordering of m to real-last *)
Definition to_last (m : qmode) (v : vec R) : vec R := if real_first m then fun i => if (i =? 3)%nat then v 0%nat else v (S i) else v.
(* Q L167-170: convertFromOtherMode from real-last to the ordering of m *)
Definition from_last (m : qmode) (v : vec R) : vec R := if real_first m then fun i => match i with O => v 3%nat | S i' => v i' end else v.

(** functions of other libraries *)
Record qkin := mkQkin {
  qexp : vec R -> vec R;          (* sm::kinematics::axisAngle2quat(2 v), real part last *)
  qlog : vec R -> vec R;          (* sm::kinematics::quat2AxisAngle(q) / 2 *)
  dqexp : vec R -> mat R;         (* 2 sm::kinematics::quatExpJacobian(2 v), 4 x 3 *)
  dqlog : vec R -> mat R;         (* sm::kinematics::quatLogJacobian2(q) / 2, 3 x 4 *)
  qplus : vec R -> mat R;         (* sm::kinematics::quatPlus, 4 x 4 *)
  qoplus : vec R -> mat R;        (* sm::kinematics::quatOPlus, 4 x 4 *)
  minv : nat -> mat R -> mat R;   (* Eigen inverse() of an n x n matrix *)
  qlogd : vec R -> Prop           (* not code: the quaternions at which quat2AxisAngle is differentiable *)
}.
(* Q L106-108, L120-122 *)
Definition qlogM (X : qkin) (m : qmode) (v : vec R) : vec R := qlog X (to_last m v).
(* same code: Q L106-108, L120-122 *)
Definition qexpM (X : qkin) (m : qmode) (v : vec R) : vec R := from_last m (qexp X v).
(* Q L110-118: the columns are reordered *)
Definition dlogM (X : qkin) (m : qmode) (v : vec R) : mat R := fun i => from_last m (dqlog X (to_last m v) i).
(* Q L144-152: the rows are reordered *)
Definition dexpM (X : qkin) (m : qmode) (v : vec R) : mat R := fun i k => from_last m (fun i => dqexp X v i k) i.
(* Q L124-132 *)
Definition qupdate (X : qkin) (m : qmode) (g : geom) (p v : vec R) : vec R :=
  match g with LEFT_TRANSLATED => qmul m p (qexpM X m v) | RIGHT_TRANSLATED => qmul m (qexpM X m v) p end.
(* Q L134-142: columns 0 to 2 *)
Definition dUpdate (X : qkin) (m : qmode) (g : geom) (p : vec R) : mat R :=
  let J := if xorb (traditional m) (match g with RIGHT_TRANSLATED => true | LEFT_TRANSLATED => false end) then qoplus X (to_last m p) else qplus X (to_last m p) in
  fun i k => from_last m (fun i => J i k) i.

(** ** Differentials: linear maps from r x c matrices to vectors *)
Inductive diff : Type :=
| DNull                                                            (* D L76-101 *)
| DId (n : nat)                                                    (* D L103-134, domain n x 1 *)
| DComp (r c : nat) (f : mat R -> mat R) (next : diff)             (* D L207-278, domain r x c, f is apply() of the derived class *)
| DMat (r c : nat) (A : mat R)                                     (* D L280-319, A is r x c *)
| DCompMat (r c : nat) (A : mat R) (next : diff).                  (* D L324-364, A is r x c *)
(* applyInto, D L88-90, L116-118, L246-248, L300-302; L346-348 *)
Fixpoint applyInto (d : diff) (X : mat R) : vec R :=
  match d with
  | DNull => fun _ => 0
  | DId _ => cv X
  | DComp _ _ f next => applyInto next (f X)
  | DMat _ c A => mvmul c A (cv X)
  | DCompMat _ c A next => applyInto next (mmul c A X)
  end.
(* getDomainBasisVectorByIndex, D L42-54 *)
Definition basis (r idx : nat) : mat R := fun i k => if (i =? idx mod r)%nat && (k =? idx / r)%nat then 1 else 0.
(* applyBasisVectorInto, D L84-86, L111-114, L238-244, L296-298, L350-352 *)
Definition applyBasis (d : diff) (k : nat) : vec R :=
  match d with
  | DNull => fun _ => 0
  | DId _ => fun i => delta k i
  | DComp r _ f next => applyInto next (f (basis r k))
  | DMat _ _ A => fun i => A i k
  | DCompMat _ _ A next => applyInto next (fun i _ => A i k)
  end.
(* the number of elements of the result vector, None: whatever it had *)
(* same code: D L84-86, L111-114, L238-244, L296-298, L350-352 *)
Fixpoint drange (d : diff) : option nat :=
  match d with DNull => None | DId n => Some n | DMat r _ _ => Some r | DComp _ _ _ next => drange next | DCompMat _ _ _ next => drange next end.
(* same code: D L84-86, L111-114, L238-244, L296-298, L350-352 *)
Definition dcols (d : diff) : nat := match d with DComp _ c _ _ => c | _ => 1%nat end.
(* DifferentialCalculator::calcJacobianByApplication, D L149-151, L174-182: result.col(i) = tmpVec needs vectors of the size of the result *)
Definition calcJac (rows cols : nat) (d : diff) : res (@dmat R) :=
  if negb (dcols d =? 1)%nat then Throw else
  match drange d with
  | Some n => if (n =? rows)%nat then Ok (mkD rows cols (fun i k => applyBasis d k i)) else UB
  | None => Ok (mkD rows cols (fun i k => applyBasis d k i))
  end.
(* addToJacobianContainer(jc, dv), D L92-93, L120-122, L250-252 with L166-168, L304-306; rows is jc.rows() *)
Definition addTo (rows : nat) (d : diff) (dv : dvr) : res (list (@cop R)) :=
  match d with
  | DNull => Ok []
  | DId _ => Ok [CAddId dv]
  | DComp _ _ _ _ | DCompMat _ _ _ _ => do J <- calcJac rows (dv_dim dv) d; Ok [CAdd dv J]
  | DMat r c A => Ok [CAdd dv (mkD r c A)]
  end.
(* addToJacobianContainer(jc, dv, jacobian), D L95-96, L124-126, L254-256 with L170-172, L308-310, L342-344 *)
Definition addToJ (rows : nat) (d : diff) (dv : dvr) (J : @dmat R) : res (list (@cop R)) :=
  match d with
  | DNull => Ok []
  | DId _ => Ok [CAdd dv J]
  | DComp _ c _ _ => if negb (c =? 1)%nat then Throw else addTo rows (DCompMat (d_rows J) (d_cols J) (d_at J) d) dv
  | DMat r c A => Ok [CAdd dv (mkD r (d_cols J) (mmul c A (d_at J)))]
  | DCompMat r c A next => addTo rows (DCompMat r (d_cols J) (mmul c A (d_at J)) next) dv
  end.
(* convertIntoMatrix, D L98-100, L128-133, L258-268, L312-318, L357-363, called by applyDifferentialToJacobianContainer D L56-74: the matrix by which the
   chain is extended; m is the number of columns of the chain (or the rows of the container), n the domain dimension *)
Definition convert (m n : nat) (d : diff) : res (@dmat R) :=
  match d with
  | DNull => Ok (mkD m n (fun _ _ => 0))
  | DId _ => if (m =? n)%nat then Ok (mkD m n delta) else UB
  | DComp _ _ _ _ => calcJac m n d
  | DMat r c A => if (r =? m)%nat && (c =? n)%nat then Ok (mkD r c A) else UB
  | DCompMat r c A _ => if (r =? m)%nat && (c =? n)%nat then Ok (mkD r c A) else UB
  end.

(** ** Expressions *)
(* an expression node of another kind (vector, scalar, cached, ...): its design variables, its value and the calls its evaluateJacobians makes *)
(* in the model only: any GenericMatrixExpressionNode.hpp node of another file *)
Record leaf := mkLeaf { l_rows : nat; l_dvs : list dvr; l_val : state -> vec R; l_jac : state -> res (list (@cop R)); l_width : nat; l_depth : nat }.

(* in the model only: GenericMatrixExpression.hpp, the operators with one operand as data *)
Inductive mun := UTranspose | UNegate | UScale (a : R) | UCast | UInverse | UQInverse (m : qmode) | UQConj (m : qmode) | UQImag (m : qmode).
(* in the model only: GenericMatrixExpression.hpp, the operators with two operands as data *)
Inductive mbin := BMul | BAdd | BSub | BCross | BQMul (m : qmode) | BRotate (m : qmode).
Inductive mx : Type :=
| XVec (d : dvr)                               (* DesignVariableGenericVector *)
| XQuat (d : dvr) (m : qmode) (g : geom)       (* DesignVariableUnitQuaternion *)
| XConst (r c : nat) (A : mat R)               (* constant_t, M L25-36 *)
| XUn (o : mun) (a : mx)
| XBin (o : mbin) (a b : mx)
| XScaleS (a : mx) (e : sx)                    (* operator*(ScalarExpression), M L341-364 *)
| XOfS (e : sx)                                (* from a ScalarExpression, M L37-56 *)
| XExp (m : qmode) (a : mx)                    (* Q L331-352 *)
| XLog (m : qmode) (a : mx)                    (* Q L307-329 *)
| XExt (l : leaf)                              (* the root of a VectorExpression used as GenericMatrixExpression, V L15-23 *)
with sx : Type :=
| SExt (l : leaf)
| SEntry (a : mx) (i k : nat)                  (* toScalarExpression, M L89-141 *)
| SNorm (a : mx).                              (* squaredNorm, M L184-213 *)

(* sizes: template arguments of the result types *)
(* GenericMatrixExpression.hpp, declarations of the operators *)
Definition un_rows (o : mun) (r c : nat) : nat := match o with UTranspose => c | UQImag _ => 3%nat | _ => r end.
(* as un_rows, GenericMatrixExpression.hpp *)
Definition un_cols (o : mun) (r c : nat) : nat := match o with UTranspose => r | _ => c end.
(* as un_rows, GenericMatrixExpression.hpp *)
Definition bin_rows (o : mbin) (ra rb : nat) : nat := match o with BRotate _ => 3%nat | _ => ra end.
(* as un_rows, GenericMatrixExpression.hpp *)
Definition bin_cols (o : mbin) (ca cb : nat) : nat := match o with BMul => cb | BCross => if (ca =? 1)%nat then cb else ca | _ => ca end.
(* as un_rows, GenericMatrixExpression.hpp *)
Fixpoint xrows (e : mx) : nat :=
  match e with
  | XVec d => dv_dim d | XQuat _ _ _ => 4 | XConst r _ _ => r | XUn o a => un_rows o (xrows a) (xcols a) | XBin o a b => bin_rows o (xrows a) (xrows b)
  | XScaleS a _ => xrows a | XOfS _ => 1 | XExp _ _ => 4 | XLog _ _ => 3 | XExt l => l_rows l
  end
with xcols (e : mx) : nat :=
  match e with
  | XVec _ | XQuat _ _ _ | XOfS _ | XExp _ _ | XLog _ _ | XExt _ => 1
  | XConst _ c _ => c | XUn o a => un_cols o (xrows a) (xcols a) | XBin o a b => bin_cols o (xcols a) (xcols b) | XScaleS a _ => xcols a
  end.

(* Eigen cross of columns *)
Definition cross3 (a b : vec R) : vec R := fun i => match i with O => a 1%nat * b 2%nat - a 2%nat * b 1%nat | 1%nat => a 2%nat * b 0%nat - a 0%nat * b 2%nat | _ => a 0%nat * b 1%nat - a 1%nat * b 0%nat end.
(* CrossProductCalculator, M L391-431: the operand with one column is used for every column *)
Definition crossM (ca cb : nat) (A B : mat R) : mat R :=
  fun i k => if (ca =? 1)%nat then cross3 (cv A) (fun x => B x k) i else cross3 (fun x => A x k) (cv B) i.

(* evaluateImplementation of unary nodes *)
Definition un_val (X : qkin) (o : mun) (r : nat) (A : mat R) : mat R :=
  match o with
  | UTranspose => mtr A                                          (* M L172-174 *)
  | UNegate => fun i k => - A i k                                (* M L328-330 *)
  | UScale a => fun i k => A i k * a                             (* M L377-379 *)
  | UCast => A                                                   (* M L152-154 *)
  | UInverse => minv X r A                                       (* M L226-228 *)
  | UQInverse m => col (qinvert m (cv A))                        (* Q L220-222 *)
  | UQConj m => col (qconj m (cv A))                             (* Q L240-242 *)
  | UQImag m => col (qimag m (cv A))                             (* Q L263-265 *)
  end.
(* applyDiff of unary nodes; A is the operand's value, T the tangent vector *)
Definition un_diff (X : qkin) (o : mun) (r : nat) (A T : mat R) : mat R :=
  match o with
  | UTranspose => mtr T                                          (* M L176-178 *)
  | UNegate => fun i k => - T i k                                (* M L332-334 *)
  | UScale a => fun i k => T i k * a                             (* M L381-383 *)
  | UCast => T                                                   (* M L156-158 *)
  | UInverse => fun i k => - mmul r (mmul r (minv X r A) T) (minv X r A) i k      (* M L230-233 *)
  | UQInverse m =>                                               (* Q L210-218 *)
      let q := qconj m (cv A) in let n := vdot 4 q q in fun i _ => - qmul m q (qmul m (cv T) q) i / (n * n)
  | UQConj m => col (qconj m (cv T))                             (* Q L236-238 *)
  | UQImag m => col (qimag m (cv T))                             (* Q L259-261 *)
  end.
(* evaluateImplementation of binary nodes *)
Definition bin_val (o : mbin) (ca cb : nat) (A B : mat R) : mat R :=
  match o with
  | BMul => mmul ca A B                                          (* M L250-252 *)
  | BAdd => madd A B                                             (* M L276-278 *)
  | BSub => msub A B                                             (* M L303-305 *)
  | BCross => crossM ca cb A B                                   (* M L446-448 *)
  | BQMul m => col (qmul m (cv A) (cv B))                        (* Q L192-194 *)
  | BRotate m => col (qimag m (qmul m (qmul43 m (cv A) (cv B)) (qconj m (cv A))))   (* Q L299-302 *)
  end.
(* applyLhsDiff *)
Definition bin_dl (o : mbin) (ca cb : nat) (A B T : mat R) : mat R :=
  match o with
  | BMul => mmul ca T B                                          (* M L254-256 *)
  | BAdd => T                                                    (* M L280-282 *)
  | BSub => T                                                    (* M L307-309 *)
  | BCross => crossM ca cb T B                                   (* M L450-455 *)
  | BQMul m => col (qmul m (cv T) (cv B))                        (* Q L185-187 *)
  | BRotate m =>                                                 (* Q L288-292 *)
      col (qimag m (vadd (qmul m (qmul43 m (cv A) (cv B)) (qconj m (cv T))) (qmul m (qmul43 m (cv T) (cv B)) (qconj m (cv A)))))
  end.
(* applyRhsDiff *)
Definition bin_dr (o : mbin) (ca cb : nat) (A B T : mat R) : mat R :=
  match o with
  | BMul => mmul ca A T                                          (* M L257-259 *)
  | BAdd => T                                                    (* M L283-285 *)
  | BSub => fun i k => - T i k                                   (* M L310-312 *)
  | BCross => crossM ca cb A T                                   (* M L456-461 *)
  | BQMul m => col (qmul m (cv A) (cv T))                        (* Q L188-190 *)
  | BRotate m => col (qimag m (qmul m (qmul43 m (cv A) (cv T)) (qconj m (cv A))))   (* Q L293-296 *)
  end.

(* evaluate: recomputed at every call, GenericMatrixExpressionNode.hpp L45-53 *)
Fixpoint xval (X : qkin) (e : mx) (s : state) : mat R :=
  match e with
  | XVec d => col (s (dv_id d))                                  (* G L69-70 *)
  | XQuat d _ _ => col (s (dv_id d))
  | XConst _ _ A => A
  | XUn o a => un_val X o (xrows a) (xval X a s)
  | XBin o a b => bin_val o (xcols a) (xcols b) (xval X a s) (xval X b s)
  | XScaleS a e => fun i k => xval X a s i k * sxval X e s       (* M L350-352 *)
  | XOfS e => fun _ _ => sxval X e s                             (* M L45-47 *)
  | XExp m a => col (qexpM X m (cv (xval X a s)))                (* Q L346-348 *)
  | XLog m a => col (qlogM X m (cv (xval X a s)))                (* Q L323-325 *)
  | XExt l => col (l_val l s)
  end
with sxval (X : qkin) (e : sx) (s : state) : R :=
  match e with
  | SExt l => l_val l s 0%nat
  | SEntry a i k => xval X a s i k                               (* M L100-102, L120-122 *)
  | SNorm a => vdot (xrows a) (cv (xval X a s)) (cv (xval X a s))  (* M L197-199 *)
  end.

(* evaluateJacobians(outJacobians, diff) of a scalar or vector node: ScalarExpressionNode.hpp L40-42 (n = 1), V L19-23: the differential is converted and applied, then
   the node's own evaluateJacobians is called *)
Definition under (m n : nat) (d : diff) (r : res (list (@cop R))) : res (list (@cop R)) :=
  do A <- convert m n d; do ops <- r; Ok (scope (CApply A) ops).
(* evaluateJacobians(outJacobians, diff) of a node inside a container with [rows] rows, while the chain has [m] columns: O L65-67, L84-86, L160-163 *)
Fixpoint xjac (X : qkin) (e : mx) (s : state) (rows m : nat) (d : diff) : res (list (@cop R)) :=
  match e with
  | XVec dv => addTo rows d dv                                   (* G L64-66 *)
  | XQuat dv md g =>                                             (* U L38-42 *)
      match g with RIGHT_TRANSLATED => addToJ rows d dv (mkD 4 3 (dUpdate X md g (s (dv_id dv)))) | LEFT_TRANSLATED => Ok [] end
  | XConst _ _ _ => Ok []
  | XUn o a => xjac X a s rows m (DComp (xrows a) (xcols a) (un_diff X o (xrows a) (xval X a s)) d)
  | XBin o a b =>
      do ja <- xjac X a s rows m (DComp (xrows a) (xcols a) (bin_dl o (xcols a) (xcols b) (xval X a s) (xval X b s)) d);
      do jb <- xjac X b s rows m (DComp (xrows b) (xcols b) (bin_dr o (xcols a) (xcols b) (xval X a s) (xval X b s)) d);
      Ok (ja ++ jb)
  | XScaleS a e =>                                               (* M L354-359 *)
      do ja <- xjac X a s rows m (DComp (xrows a) (xcols a) (fun T i k => T i k * sxval X e s) d);
      do je <- under m 1 (DComp 1 1 (fun T i k => xval X a s i k * T 0%nat 0%nat) d) (sxjac X e s rows);
      Ok (ja ++ je)
  | XOfS e => under m 1 (DComp 1 1 (fun T => T) d) (sxjac X e s rows)     (* M L49-51 *)
  | XExp md a => xjac X a s rows m (DCompMat 4 3 (dexpM X md (cv (xval X a s))) d)     (* Q L341-344 *)
  | XLog md a => xjac X a s rows m (DCompMat 3 4 (dlogM X md (cv (xval X a s))) d)     (* Q L318-321 *)
  | XExt l => under m (l_rows l) d (l_jac l s)   (* V L19-23 *)
  end
(* evaluateJacobians(outJacobians) of a scalar node *)
with sxjac (X : qkin) (e : sx) (s : state) (rows : nat) : res (list (@cop R)) :=
  match e with
  | SExt l => l_jac l s
  | SEntry a i k => xjac X a s rows 1 (DComp (xrows a) (xcols a) (fun T x y => T (i + x)%nat (k + y)%nat) (DId 1))     (* M L104-106, O L95-97 *)
  | SNorm a =>                                                   (* M L205-208 *)
      do ops <- xjac X a s rows (xrows a) (DId (xrows a)); Ok (scope (CApply (mkD 1 (xrows a) (fun _ k => 2 * xval X a s k 0%nat))) ops)
  end.
(* GenericMatrixExpression::evaluateJacobians(outJacobians), M L66-69, for a container of its own *)
Definition xjacobian (X : qkin) (e : mx) (s : state) : res (list (@cop R)) := xjac X e s (xrows e) (xrows e) (DId (xrows e)).

(* getDesignVariables: O L61-63, L156-159, G L60-62 *)
Fixpoint xdvs (e : mx) : list dvr :=
  match e with
  | XVec d => [d] | XQuat d _ _ => [d] | XConst _ _ _ => [] | XUn _ a => xdvs a | XBin _ a b => xdvs a ++ xdvs b | XScaleS a e => xdvs a ++ sxdvs e
  | XOfS e => sxdvs e | XExp _ a => xdvs a | XLog _ a => xdvs a | XExt l => l_dvs l
  end
with sxdvs (e : sx) : list dvr := match e with SExt l => l_dvs l | SEntry a _ _ => xdvs a | SNorm a => xdvs a end.
