(** * Model of the design-variable classes, of save/restore and of the numerical-difference functor

    aslam_backend_expressions/src/{Scalar,EuclideanPoint,RotationQuaternion,HomogeneousPoint,
    EuclideanDirection,MatrixBasic,Mapped*}.cpp, include/aslam/backend/{DesignVariableGenericVector,
    DesignVariableUnitQuaternion}.hpp, implementation/{GenericScalar,DesignVariableVector,
    DesignVariableMappedVector}.hpp; aslam_backend/include/aslam/backend/implementation/
    {DesignVariableAdapter,ErrorTerm}.hpp; aslam_backend_tutorial/src/ScalarDesignVariable.cpp;
    aslam_backend/src/util/ProblemManager.cpp L209-220; util/utils.hpp (DesignVariableState).

    The scalar type and its arithmetic are arbitrary (so the statements hold for IEEE doubles);
    matrices are lists of entries in storage order.  DesignVariable::update, revertUpdate and
    setParameters (DesignVariable.cpp L21-50) call the ...Implementation functions modelled here
    after invalidating caches (caches: C54). *)
From Coq Require Import List Arith Bool.
From Verif Require Import Lib_Res.
Import ListNotations.

(** what the back end sees of a design variable: parameters and the value used by expressions *)
(* the virtual functions of aslam_backend/include/aslam/backend/DesignVariable.hpp L41-102 *)
Record dvclass (F : Type) := mkClass {
  cS : Type; cO : Type;
  c_update : cS -> list F -> cS;
  c_revert : cS -> res cS;
  c_get : cS -> list F;
  c_set : cS -> list F -> cS;
  c_obs : cS -> cO }.
Arguments mkClass {F}. Arguments cS {F}. Arguments cO {F}. Arguments c_update {F}. Arguments c_revert {F}.
Arguments c_get {F}. Arguments c_set {F}. Arguments c_obs {F}.

Section Classes.
Variable F : Type.
Variables (fzero : F) (fadd : F -> F -> F).

(** _v += dv, element-wise *)
(* in the model only: Eigen operator+= *)
Fixpoint vplus (a b : list F) : list F :=
  match a, b with x :: s, y :: t => fadd x y :: vplus s t | _, _ => a end.

(** two members: current and previous value *)
(* in the model only: the members shared by the classes below *)
Record two (V : Type) := mkTwo { cur : V; prev : V }.
Arguments mkTwo {V}. Arguments cur {V}. Arguments prev {V}.

(** ** Scalar.cpp: ctor L8-12, revert L20-23, update L27-33, get L80-84, set L86-89 *)
Definition Scalar_ctor (p : F) : two F := mkTwo p p.
(* same code: Scalar.cpp, L8-12, L20-23, L27-33, L80-84, L86-89 *)
Definition Scalar_class : dvclass F := {|
  cS := two F; cO := F;
  c_update s d := mkTwo (fadd (cur s) (hd fzero d)) (cur s);
  c_revert s := Ok (mkTwo (prev s) (prev s));
  c_get s := [cur s];
  c_set s v := mkTwo (hd fzero v) (cur s);
  c_obs s := cur s |}.

(** ** aslam_backend_tutorial/src/ScalarDesignVariable.cpp: ctor L9-12, update L36-43, revert L47-50,
    get L52-57, set L60-64 *)
Definition ScalarDesignVariable_ctor (p : F) : two F := mkTwo p p.
(* same code: aslam_backend_tutorial/src/ScalarDesignVariable.cpp, L9-12, L36-43, L47-50, L52-57, L60-64 *)
Definition ScalarDesignVariable_class : dvclass F := {|
  cS := two F; cO := F;
  c_update s d := mkTwo (fadd (cur s) (hd fzero d)) (cur s);
  c_revert s := Ok (mkTwo (prev s) (prev s));
  c_get s := [cur s];
  c_set s v := mkTwo (hd fzero v) (cur s);
  c_obs s := cur s |}.

(** ** GenericScalar.hpp: ctor L9-13, revert L18-20, update L23-26, get L51-54, set L56-59.
    Scalar_ is a type T with conversions from and to double and its own addition. *)
Section GS.
Variables (T : Type) (ofD : F -> T) (toD : T -> F) (tadd : T -> T -> T).
(* same code: GenericScalar.hpp, L9-13, L18-20, L23-26, L51-54, L56-59 *)
Definition GenericScalar_ctor (p : T) : two T := mkTwo p p.
(* same code: GenericScalar.hpp, L9-13, L18-20, L23-26, L51-54, L56-59 *)
Definition GenericScalar_class : dvclass F := {|
  cS := two T; cO := T;
  c_update s d := mkTwo (tadd (cur s) (ofD (hd fzero d))) (cur s);
  c_revert s := Ok (mkTwo (prev s) (prev s));
  c_get s := [toD (cur s)];
  c_set s v := mkTwo (ofD (hd fzero v)) (cur s);
  c_obs s := cur s |}.
End GS.

(** ** EuclideanPoint.cpp: ctor L5-9, revert L17-20, update L24-33, get L64-67, set L69-73 *)
Definition EuclideanPoint_ctor (p : list F) : two (list F) := mkTwo p p.
(* same code: EuclideanPoint.cpp, L5-9, L17-20, L24-33, L64-67, L69-73 *)
Definition EuclideanPoint_class : dvclass F := {|
  cS := two (list F); cO := list F;
  c_update s d := mkTwo (vplus (cur s) d) (cur s);
  c_revert s := Ok (mkTwo (prev s) (prev s));
  c_get s := cur s;
  c_set s v := mkTwo v (cur s);
  c_obs s := cur s |}.

(** ** MappedEuclideanPoint.cpp: ctor L6-10, revert L17-20, update L23-32, get L60-63, set L65-69.
    _p maps memory owned by the caller; the model assumes nobody else writes to it. *)
Definition MappedEuclideanPoint_ctor (p : list F) : two (list F) := mkTwo p p.
(* same code: MappedEuclideanPoint.cpp, L6-10, L17-20, L23-32, L60-63, L65-69 *)
Definition MappedEuclideanPoint_class : dvclass F := {|
  cS := two (list F); cO := list F;
  c_update s d := mkTwo (vplus (cur s) d) (cur s);
  c_revert s := Ok (mkTwo (prev s) (prev s));
  c_get s := cur s;
  c_set s v := mkTwo v (cur s);
  c_obs s := cur s |}.

(** ** implementation/DesignVariableVector.hpp: ctors L5-17, revert L32-35, update L39-47, get L75-79, set L81-86 *)
Definition DesignVariableVector_ctor (v : list F) : two (list F) := mkTwo v v.
(* same code: implementation/DesignVariableVector.hpp, L5-17, L32-35, L39-47, L75-79, L81-86 *)
Definition DesignVariableVector_ctor_dim (dim : nat) : two (list F) := mkTwo (repeat fzero dim) (repeat fzero dim).
(* same code: implementation/DesignVariableVector.hpp, L5-17, L32-35, L39-47, L75-79, L81-86 *)
Definition DesignVariableVector_class : dvclass F := {|
  cS := two (list F); cO := list F;
  c_update s d := mkTwo (vplus (cur s) d) (cur s);
  c_revert s := Ok (mkTwo (prev s) (prev s));
  c_get s := cur s;
  c_set s v := mkTwo v (cur s);
  c_obs s := cur s |}.

(** ** implementation/DesignVariableMappedVector.hpp: ctors L5-15, revert L50-53, update L57-64, get L95-98, set L101-105 *)
Definition DesignVariableMappedVector_ctor (v : list F) : two (list F) := mkTwo v v.
(* same code: implementation/DesignVariableMappedVector.hpp, L5-15, L50-53, L57-64, L95-98, L101-105 *)
Definition DesignVariableMappedVector_class : dvclass F := {|
  cS := two (list F); cO := list F;
  c_update s d := mkTwo (vplus (cur s) d) (cur s);
  c_revert s := Ok (mkTwo (prev s) (prev s));
  c_get s := cur s;
  c_set s v := mkTwo v (cur s);
  c_obs s := cur s |}.

(** ** MatrixBasic.cpp: ctors L9-32, revert L38-40, update L43-48, get L75-77, set L79-82;
    [bmul] is multiplication by the constant matrix _B *)
Section MB.
Variable bmul : list F -> list F.
(* same code: MatrixBasic.cpp, L9-32, L38-40, L43-48, L75-77, L79-82 *)
Definition MatrixBasic_ctor (A : list F) : two (list F) := mkTwo A A.
(* same code: MatrixBasic.cpp, L9-32, L38-40, L43-48, L75-77, L79-82 *)
Definition MatrixBasic_class : dvclass F := {|
  cS := two (list F); cO := list F;
  c_update s d := let dV := bmul d in mkTwo (vplus (cur s) dV) (cur s);
  c_revert s := Ok (mkTwo (prev s) (prev s));
  c_get s := cur s;
  c_set s v := mkTwo v (cur s);
  c_obs s := cur s |}.
End MB.

(** ** EuclideanDirection.cpp: ctor L7-20, revert L28-31, update L34-39, get L74-77, set L79-83.
    [yprmul C d] is C * ypr(0,d0,d1)^T; the constructor builds an arbitrary initial matrix;
    the value is magnitude * third column. *)
Section ED.
Variables (yprmul : list F -> list F -> list F) (scale_col2 : F -> list F -> list F).
(* same code: EuclideanDirection.cpp, L7-20, L28-31, L34-39, L74-77, L79-83 *)
Record edir := mkEdir { ed_C : list F; ed_pC : list F; ed_mag : F }.
(* same code: EuclideanDirection.cpp, L7-20, L28-31, L34-39, L74-77, L79-83 *)
Definition EuclideanDirection_ctor (C : list F) (mag : F) : edir := mkEdir C C mag.
(* same code: EuclideanDirection.cpp, L7-20, L28-31, L34-39, L74-77, L79-83 *)
Definition EuclideanDirection_class : dvclass F := {|
  cS := edir; cO := list F;
  c_update s d := mkEdir (yprmul (ed_C s) d) (ed_C s) (ed_mag s);
  c_revert s := Ok (mkEdir (ed_pC s) (ed_pC s) (ed_mag s));
  c_get s := ed_C s;
  c_set s v := mkEdir v (ed_C s) (ed_mag s);
  c_obs s := scale_col2 (ed_mag s) (ed_C s) |}.
End ED.

(** ** quaternion valued classes; updateQuat, quat2r and r2quat are functions of sm_kinematics *)
Section Quat.
Variables (updateQuat : list F -> list F -> list F) (quat2r r2quat : list F -> list F).
Variable normalise : list F -> list F.

(** HomogeneousPoint.cpp: ctor L6-12, revert L20-23, update L26-32, get L60-63, set L65-69 *)
Definition HomogeneousPoint_ctor (p : list F) : two (list F) := mkTwo (normalise p) (normalise p).
(* same code: HomogeneousPoint.cpp, L6-12, L20-23, L26-32, L60-63, L65-69 *)
Definition HomogeneousPoint_class : dvclass F := {|
  cS := two (list F); cO := list F;
  c_update s d := mkTwo (updateQuat (cur s) d) (cur s);
  c_revert s := Ok (mkTwo (prev s) (prev s));
  c_get s := cur s;
  c_set s v := mkTwo v (cur s);
  c_obs s := cur s |}.

(** MappedHomogeneousPoint.cpp: ctor L7-13, revert L20-23, update L26-32, get L60-63, set L65-69 *)
Definition MappedHomogeneousPoint_ctor (p : list F) : two (list F) := mkTwo (normalise p) (normalise p).
(* same code: MappedHomogeneousPoint.cpp, L7-13, L20-23, L26-32, L60-63, L65-69 *)
Definition MappedHomogeneousPoint_class : dvclass F := {|
  cS := two (list F); cO := list F;
  c_update s d := mkTwo (updateQuat (cur s) d) (cur s);
  c_revert s := Ok (mkTwo (prev s) (prev s));
  c_get s := cur s;
  c_set s v := mkTwo v (cur s);
  c_obs s := cur s |}.

(* RotationQuaternion.hpp L56-58 *)
Record rotq := mkRotq { rq_q : list F; rq_pq : list F; rq_C : list F }.
(** RotationQuaternion.cpp: ctors L9-17, revert L23-27, update L30-38, get L68-71, set L73-78 *)
Definition RotationQuaternion_ctor_q (q : list F) : rotq := mkRotq q q (quat2r q).
(* same code: RotationQuaternion.cpp, L9-17, L23-27, L30-38, L68-71, L73-78 *)
Definition RotationQuaternion_ctor_C (C : list F) : rotq := mkRotq (r2quat C) (r2quat C) C.
(* same code: RotationQuaternion.cpp, L9-17, L23-27, L30-38, L68-71, L73-78 *)
Definition RotationQuaternion_class : dvclass F := {|
  cS := rotq; cO := list F;
  c_update s d := let q := updateQuat (rq_q s) d in mkRotq q (rq_q s) (quat2r q);
  c_revert s := let q := rq_pq s in Ok (mkRotq q (rq_pq s) (quat2r q));
  c_get s := rq_q s;
  c_set s v := mkRotq v (rq_q s) (quat2r v);
  c_obs s := rq_C s |}.

(** MappedRotationQuaternion.cpp: ctor L9, revert L15-19, update L22-30, get L58-61, set L63-68 *)
Definition MappedRotationQuaternion_ctor (q : list F) : rotq := mkRotq q q (quat2r q).
(* same code: MappedRotationQuaternion.cpp, L9, L15-19, L22-30, L58-61, L63-68 *)
Definition MappedRotationQuaternion_class : dvclass F := {|
  cS := rotq; cO := list F;
  c_update s d := let q := updateQuat (rq_q s) d in mkRotq q (rq_q s) (quat2r q);
  c_revert s := let q := rq_pq s in Ok (mkRotq q (rq_pq s) (quat2r q));
  c_get s := rq_q s;
  c_set s v := mkRotq v (rq_q s) (quat2r v);
  c_obs s := rq_C s |}.
End Quat.

(** ** DesignVariableGenericVector.hpp: ctor L21-23 (_p_v is left uninitialised: [None]), revert L37-39
    (copying an uninitialised vector is undefined), update L41-45, get L51-53, set L55-58.
    DesignVariableUnitQuaternion.hpp L31-35 replaces the addition by the quaternion update. *)
Section GV.
Variable gupdate : list F -> list F -> list F.
(* same code: DesignVariableGenericVector.hpp, L21-23, L37-39, L41-45, L51-53, L55-58, DesignVariableUnitQuaternion.hpp L31-35 *)
Record gvec := mkGvec { gv_cur : list F; gv_prev : option (list F) }.
(* same code: DesignVariableGenericVector.hpp, L21-23, L37-39, L41-45, L51-53, L55-58, DesignVariableUnitQuaternion.hpp L31-35 *)
Definition GenericVector_ctor (v : list F) : gvec := mkGvec v None.
(* same code: DesignVariableGenericVector.hpp, L21-23, L37-39, L41-45, L51-53, L55-58, DesignVariableUnitQuaternion.hpp L31-35 *)
Definition GenericVector_class : dvclass F := {|
  cS := gvec; cO := list F;
  c_update s d := mkGvec (gupdate (gv_cur s) d) (Some (gv_cur s));
  c_revert s := match gv_prev s with Some v => Ok (mkGvec v (gv_prev s)) | None => UB end;
  c_get s := gv_cur s;
  c_set s v := mkGvec v (gv_prev s);
  c_obs s := gv_cur s |}.
End GV.

(** ** implementation/DesignVariableAdapter.hpp: update L43-47, revert L52-55, get L80-83, set L86-90.
    The adapted object T has its own state; _backup starts as an empty matrix. *)
Section Adapter.
Variables (X : Type) (x_update : X -> list F -> X) (x_get : X -> list F) (x_set : X -> list F -> X).
(* same code: implementation/DesignVariableAdapter.hpp, L43-47, L52-55, L80-83, L86-90 *)
Record adapter := mkAdapter { ad_x : X; ad_backup : list F }.
(* same code: implementation/DesignVariableAdapter.hpp, L43-47, L52-55, L80-83, L86-90 *)
Definition Adapter_ctor (x : X) : adapter := mkAdapter x [].
(* same code: implementation/DesignVariableAdapter.hpp, L43-47, L52-55, L80-83, L86-90 *)
Definition Adapter_class : dvclass F := {|
  cS := adapter; cO := list F;
  c_update s d := mkAdapter (x_update (ad_x s) d) (x_get (ad_x s));
  c_revert s := Ok (mkAdapter (x_set (ad_x s) (ad_backup s)) (ad_backup s));
  c_get s := x_get (ad_x s);
  c_set s v := mkAdapter (x_set (ad_x s) v) (x_get (ad_x s));
  c_obs s := x_get (ad_x s) |}.
End Adapter.
End Classes.
Arguments mkTwo {V}. Arguments cur {V}. Arguments prev {V}.
Arguments mkGvec {F}. Arguments gv_cur {F}. Arguments gv_prev {F}.
Arguments mkRotq {F}. Arguments rq_q {F}. Arguments rq_pq {F}. Arguments rq_C {F}.
Arguments mkAdapter {F X}. Arguments ad_x {F X}. Arguments ad_backup {F X}.
Arguments mkEdir {F}. Arguments ed_C {F}. Arguments ed_pC {F}. Arguments ed_mag {F}.

(** ** histories of one design variable *)
Section Hist.
Variable F : Type.
(* in the model only: DesignVariable.hpp L41-102 as data *)
Inductive dvop := DUpdate (dx : list F) | DRevert | DSet (p : list F).
(* in the model only: dispatch *)
Definition dvstep (c : dvclass F) (o : dvop) (s : cS c) : res (cS c) :=
  match o with DUpdate d => Ok (c_update c s d) | DRevert => c_revert c s | DSet p => Ok (c_set c s p) end.
(* in the model only: a sequence of calls *)
Fixpoint dvrun (c : dvclass F) (h : list dvop) (s : cS c) : res (cS c) :=
  match h with [] => Ok s | o :: r => do s' <- dvstep c o s; dvrun c r s' end.

(** ** several design variables: pointers to objects of any class *)
(* in the model only: an object with its class *)
Record obj := mkObj { o_cls : dvclass F; o_st : cS o_cls }.
(* in the model only: memory *)
Definition heap := nat -> obj.
(* in the model only: memory *)
Definition hset (h : heap) (i : nat) (o : obj) : heap := fun j => if j =? i then o else h j.
(* in the model only: virtual call of getParameters *)
Definition o_get (o : obj) : list F := c_get (o_cls o) (o_st o).
(* in the model only: virtual call of update *)
Definition o_update (o : obj) (d : list F) : obj := mkObj (o_cls o) (c_update (o_cls o) (o_st o) d).
(* in the model only: virtual call of setParameters *)
Definition o_set (o : obj) (p : list F) : obj := mkObj (o_cls o) (c_set (o_cls o) (o_st o) p).
(* in the model only: virtual call of revertUpdate *)
Definition o_revert (o : obj) : res obj := do s <- c_revert (o_cls o) (o_st o); Ok (mkObj (o_cls o) s).

(** ProblemManager::saveDesignVariables L209-215, DesignVariableState::save (utils.hpp) *)
Definition saveDesignVariables (dvs : list nat) (h : heap) : list (nat * list F) :=
  map (fun i => (i, o_get (h i))) dvs.
(** restoreDesignVariables L217-220, DesignVariableState::restore *)
Fixpoint restoreDesignVariables (st : list (nat * list F)) (h : heap) : heap :=
  match st with [] => h | (i, p) :: r => restoreDesignVariables r (hset h i (o_set (h i) p)) end.

(** ErrorTermFunctor::operator(), implementation/ErrorTerm.hpp L80-97.
    [dims i] is minimalDimensions() of design variable i. *)
Variable dims : nat -> nat.
(* same code: implementation/ErrorTerm.hpp L80-97 *)
Fixpoint f_update (dvs : list nat) (dr : list F) (h : heap) : heap :=
  match dvs with
  | [] => h
  | i :: r => f_update r (skipn (dims i) dr) (hset h i (o_update (h i) (firstn (dims i) dr)))
  end.
(* same code: implementation/ErrorTerm.hpp L80-97 *)
Fixpoint f_revert (dvs : list nat) (h : heap) : res heap :=
  match dvs with
  | [] => Ok h
  | i :: r => do o <- o_revert (h i); f_revert r (hset h i o)
  end.
(** result of the functor: the error value and the heap, or the exception of evaluateError
    together with the heap it leaves behind *)
(* same code: implementation/ErrorTerm.hpp L80-97 *)
Inductive fres (E : Type) := FReturn (e : E) (h : heap) | FThrow (h : heap) | FUB.
Arguments FReturn {E}. Arguments FThrow {E}. Arguments FUB {E}.
(* same code: implementation/ErrorTerm.hpp L80-97 *)
Definition functor_call {E : Type} (err : heap -> option E) (dvs : list nat) (dr : list F) (h : heap) : fres E :=
  let h1 := f_update dvs dr h in
  match err h1 with
  | None => FThrow h1
  | Some e => match f_revert dvs h1 with Ok h2 => FReturn e h2 | _ => FUB end
  end.
End Hist.
Arguments FReturn {F E}. Arguments FThrow {F E}. Arguments FUB {F E}.
Arguments DUpdate {F}. Arguments DRevert {F}. Arguments DSet {F}.
Arguments mkObj {F}. Arguments o_cls {F}. Arguments o_st {F}. Arguments o_get {F}. Arguments o_update {F}.
Arguments o_set {F}. Arguments o_revert {F}. Arguments hset {F}. Arguments heap F : clear implicits.
Arguments dvrun {F}. Arguments dvstep {F}.
Arguments saveDesignVariables {F}. Arguments restoreDesignVariables {F}. Arguments f_update {F}. Arguments f_revert {F}.
Arguments functor_call {F} dims {E}.
