(** * minimalDifference of the design variables

    aslam_backend/src/DesignVariable.cpp ("Dv"), aslam_backend/include/aslam/backend/implementation/DesignVariableAdapter.hpp ("Ad"),
    aslam_backend_tutorial/src/ScalarDesignVariable.cpp ("Sd"); in aslam_backend_expressions: src/EuclideanPoint.cpp ("Ep"), src/MappedEuclideanPoint.cpp ("Mep"),
    src/Scalar.cpp ("Sc"), include/aslam/backend/implementation/GenericScalar.hpp ("Gs"), .../DesignVariableVector.hpp ("Vv"), .../DesignVariableMappedVector.hpp ("Mv"),
    src/HomogeneousPoint.cpp ("Hp"), src/MappedHomogeneousPoint.cpp ("Mhp"), src/RotationQuaternion.cpp ("Q"), src/MappedRotationQuaternion.cpp ("Mq"),
    src/EuclideanDirection.cpp ("Ed"), include/aslam/backend/DesignVariableMinimalDifferenceExpression.hpp ("Me").

    Real arithmetic. The functions of sm::kinematics are the fields of [qlogk]; qplus is written out in Quat_Model, quatInv below. *)
From Coq Require Import Arith Lia List ZArith Bool Reals.
From Verif Require Import Lib_Ring Lib_Real Lib_Res MatrixStack_Model DesignVar_Base Jacobian_Model Scalar_Model Quat_Model.
Import ListNotations.
Local Open Scope R_scope.

(* axisAngle2quat inside updateQuat (Q L35); qlog (Q L79); quatLogJacobian (Hp L83, Mq L82, Mhp L83), quatLogJacobian2 (Q L88), quatJacobian (Q L88, Hp L83) *)
Record qlogk := mkQlog { qk_aa2q : vec R -> vec R; qk_log : vec R -> vec R; qk_logJ : vec R -> mat R; qk_logJ2 : vec R -> mat R; qk_J : vec R -> mat R }.
(* quatInv: Q L79, L87 *)
Definition quatInv (q : vec R) : vec R := fun i => if (i =? 3)%nat then q i else - q i.

(* the classes *)
Inductive mkind : Type :=
| KEuclideanPoint | KMappedEuclideanPoint                       (* Ep, Mep *)
| KVector (n : nat) | KMappedVector (n : nat)                   (* Vv, Mv *)
| KScalar | KGenericScalar | KTutorialScalar                    (* Sc, Gs, Sd *)
| KHomogeneousPoint | KMappedHomogeneousPoint                   (* Hp, Mhp *)
| KRotationQuaternion | KMappedRotationQuaternion               (* Q, Mq *)
| KEuclideanDirection                                           (* Ed *)
| KAdapter                                                      (* Ad *)
| KDefault.                                                     (* a class without an implementation of its own: Dv L63-71 *)

(* the members _p/_v/_q and _p_p/_p_v/_p_q, e.g. Ep L7, Q L10, Mep L7 (there _p is a map onto memory of the caller) *)
Record mdv := mkMd { md_kind : mkind; md_cur : vec R; md_prev : vec R }.

(* a quaternion with a three-dimensional update *)
(* in the model only: Hp, Q and their mapped versions *)
Definition quat_kind (k : mkind) : bool := match k with KHomogeneousPoint | KMappedHomogeneousPoint | KRotationQuaternion | KMappedRotationQuaternion => true | _ => false end.
(* number of parameters: Ep L67, Vv L77, Sc L66, Hp L62, Q L66 *)
Definition md_size (k : mkind) : nat :=
  match k with KEuclideanPoint | KMappedEuclideanPoint => 3 | KVector n | KMappedVector n => n | KScalar | KGenericScalar | KTutorialScalar => 1
  | KHomogeneousPoint | KMappedHomogeneousPoint | KRotationQuaternion | KMappedRotationQuaternion => 4 | KEuclideanDirection | KAdapter | KDefault => 0 end%nat.
(* minimalDimensions: Ep L35-38, Mep L35-38, Vv L50-53, Mv L69-72, Sc L32-35, Hp L35-38, Q L39-42, Mq L33-36 *)
Definition md_dim (k : mkind) : nat := if quat_kind k then 3%nat else md_size k.

(* updateImplementation: Ep L23-32, Mep L23-32, Vv L39-46, Mv L57-64, Sc L23-29, Gs L23-26, Sd L36-43, Hp L26-32, Mhp L26-32, Q L29-37, Mq L23-31 *)
Definition md_update (X : qlogk) (v : mdv) (d : vec R) : mdv :=
  mkMd (md_kind v) (if quat_kind (md_kind v) then updateQuat (qk_aa2q X) (md_cur v) d else fun i => md_cur v i + d i) (md_cur v).
(* revertUpdateImplementation: Ep L17-20, Mep L17-20, Vv L32-35, Mv L50-53, Sc L17-20, Gs L18-20, Sd L47-50, Hp L20-23, Mhp L20-23, Q L22-26, Mq L16-20 *)
Definition md_revert (v : mdv) : mdv := mkMd (md_kind v) (md_prev v) (md_prev v).
(* setParametersImplementation: Ep L69-73, Mep L65-69, Vv L81-86, Mv L101-105, Sc L70-73, Gs L56-59, Sd L60-64, Hp L65-69, Mhp L65-69, Q L69-74, Mq L63-68 *)
Definition md_setParameters (v : mdv) (x : @dmat R) : mdv := mkMd (md_kind v) (fun i => d_at x i 0%nat) (md_cur v).
(* getParametersImplementation: Ep L64-67, Mep L60-63, Vv L75-78, Mv L95-98, Sc L64-68, Gs L51-54, Sd L52-57, Hp L60-63, Mhp L60-63, Q L64-67, Mq L58-61 *)
Definition md_getParameters (v : mdv) : @dmat R := mkD (md_size (md_kind v)) 1 (fun i _ => md_cur v i).

(* a column of numbers with its length (Eigen::VectorXd) *)
Record colv := mkCol { cv_n : nat; cv_at : vec R }.
(* the assertion on the size of xHat: Ep L77, Mep L73, Sc L77, Gs L62, Vv L91, Mv L110, Hp L73, Mhp L73, Q L78, Mq L72 *)
Definition size_check (n : nat) (xHat : @dmat R) : res unit := if ((d_rows xHat =? n) && (d_cols xHat =? 1))%nat then Ok tt else Throw.
(* difference of a vector and xHat: Ep L78, Mep L74, Vv L92, Mv L111, Sc L79, Gs L64, Sd L69 *)
Definition vec_diff (n : nat) (v : vec R) (xHat : @dmat R) : colv := mkCol n (fun i => v i - d_at xHat i 0%nat).
(* qplus(q, quatInv(xHat)): Q L79, L87; Hp L74, L82; Mq L73, L81; Mhp L74, L82 *)
Definition eval_point (q : vec R) (xHat : @dmat R) : vec R := qplus q (quatInv (fun i => d_at xHat i 0%nat)).
(* qlog of it: Q L79, Hp L74, Mq L73, Mhp L74 *)
Definition quat_diff (X : qlogk) (q : vec R) (xHat : @dmat R) : colv := mkCol 3 (qk_log X (eval_point q xHat)).

(* minimalDifference (Dv L51-54) and minimalDifferenceImplementation: Ep L75-79, Mep L71-75, Vv L89-93, Mv L108-112, Sc L75-80, Gs L61-65, Sd L66-70, Hp L71-75,
   Mhp L71-75, Q L76-80, Mq L70-74, Ed L85-90, Ad L93-96, Dv L63-66. [out] is the contents of outDifference before the call. *)
Definition md_difference (X : qlogk) (v : mdv) (xHat : @dmat R) (out : colv) : res colv :=
  let n := md_size (md_kind v) in
  match md_kind v with
  | KEuclideanPoint | KVector _ | KScalar | KGenericScalar => do _ <- size_check n xHat; Ok (vec_diff n (md_cur v) xHat)
  | KMappedEuclideanPoint | KMappedVector _ => do _ <- size_check n xHat; Ok (vec_diff n (md_prev v) xHat)
  | KTutorialScalar => if ((0 <? d_rows xHat) && (0 <? d_cols xHat))%nat then Ok (vec_diff 1 (md_cur v) xHat) else UB
  | KHomogeneousPoint | KRotationQuaternion => do _ <- size_check 4 xHat; Ok (quat_diff X (md_cur v) xHat)
  | KMappedHomogeneousPoint | KMappedRotationQuaternion => do _ <- size_check 4 xHat; Ok (quat_diff X (md_prev v) xHat)
  | KEuclideanDirection => Throw
  | KAdapter => Ok out
  | KDefault => Throw
  end.
(* the Jacobian of the quaternion classes: Q L88, Hp L83, Mq L82, Mhp L83 *)
Definition quat_diff_J (X : qlogk) (second : bool) (q : vec R) (xHat : @dmat R) : @dmat R :=
  let p := eval_point q xHat in mkD 3 3 (mmul 4 ((if second then qk_logJ2 X else qk_logJ X) p) (qk_J X p)).
(* minimalDifferenceAndJacobian (Dv L56-59) and its implementations: Ep L81-85, Mep L77-81, Vv L95-100, Mv L114-119, Sc L82-86, Gs L67-70, Sd L72-76, Hp L77-84,
   Mhp L77-84, Q L82-89, Mq L76-83, Ed L92-98, Ad L98-102, Dv L68-71 *)
Definition md_differenceAndJacobian (X : qlogk) (v : mdv) (xHat : @dmat R) (out : colv) (outJ : @dmat R) : res (colv * @dmat R) :=
  let n := md_size (md_kind v) in
  do e <- md_difference X v xHat out;
  Ok (e, match md_kind v with
         | KEuclideanPoint | KMappedEuclideanPoint | KVector _ | KMappedVector _ | KScalar | KGenericScalar | KTutorialScalar => mkD n n mid
         | KRotationQuaternion => quat_diff_J X true (md_cur v) xHat
         | KHomogeneousPoint => quat_diff_J X false (md_cur v) xHat
         | KMappedRotationQuaternion | KMappedHomogeneousPoint => quat_diff_J X false (md_prev v) xHat
         | KEuclideanDirection | KAdapter | KDefault => outJ
         end).

(** ** DesignVariableMinimalDifferenceExpressionNode<D> *)
(* evaluateImplementation: Me L26-30; the conversion to a vector with D entries needs D entries *)
Definition mde_evaluate (X : qlogk) (D : nat) (v : mdv) (xHat : @dmat R) : res colv :=
  do e <- md_difference X v xHat (mkCol 0 (fun _ => 0)); if (cv_n e =? D)%nat then Ok e else UB.
(* evaluateJacobiansImplementation: Me L32-37; [d] is the bookkeeping part of the design variable *)
Definition mde_calls (X : qlogk) (d : dvr) (v : mdv) (xHat : @dmat R) : res (list (@cop R)) :=
  do r <- md_differenceAndJacobian X v xHat (mkCol 0 (fun _ => 0)) (mkD 0 0 (fun _ _ => 0)); Ok [CAdd d (snd r)].
