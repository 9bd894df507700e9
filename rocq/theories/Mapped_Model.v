(** * Model of the design variables that map memory of the caller

    aslam_backend_expressions/src/{MappedEuclideanPoint,MappedHomogeneousPoint,MappedRotationQuaternion,MapTransformation}.cpp (P, H, Q, T below), include/aslam/backend/Mapped*.hpp,
    implementation/DesignVariableMappedVector.hpp (V below). In contrast to DV_Model the memory is explicit: several design variables and the caller may write to it.
    Simplification: memory is arrays by address, arrays with different addresses do not overlap. The numbers and their arithmetic are arbitrary. *)
From Coq Require Import List Arith Bool.
From Verif Require Import Lib_Res DV_Model.
Import ListNotations.

Section Mapped.
  Variable F : Type.
  Variables (fadd : F -> F -> F) (updateQuat : list F -> list F -> list F) (quat2r : list F -> list F) (normalise : list F -> list F).

  (* the caller's memory *)
  (* in the model only: helper *)
  Definition mem := nat -> list F.
  (* writing an array (assignment to an Eigen::Map, P L30, H L30, Q L29, V L63) *)
  Definition write (m : mem) (a : nat) (v : list F) : mem := fun b => if b =? a then v else m b.
  (* the four classes: P, V, H, Q *)
  (* same code: Eigen::Map, P L30, H L30, Q L29, V L63 *)
  Inductive kind := Point | Vector | Homogeneous | Quaternion.
  (* what an object holds: the pointer (_p, _v, _q), the previous value (_p_p, _p_v, _p_q) and, used by quaternions only, the rotation matrix _C: MappedEuclideanPoint.hpp L51-54,
     DesignVariableMappedVector.hpp L59-60, MappedHomogeneousPoint.hpp L50-53, MappedRotationQuaternion.hpp L50-52 *)
  Record mdv := mkMdv { d_kind : kind; d_at : nat; d_prev : list F; d_C : list F }.
  (* _C = quat2r(_q), Q L10, L19, L30, L67; the other classes have no such member *)
  Definition refresh (k : kind) (v old : list F) : list F := match k with Quaternion => quat2r v | _ => old end.
  (* constructors P L6-10, V L6-15, H L7-13 (normalises the caller's array), Q L10 *)
  Definition make (k : kind) (a : nat) (m : mem) : mdv * mem :=
    let v := match k with Homogeneous => normalise (m a) | _ => m a end in (mkMdv k a v (refresh k v []), write m a v).
  (* P L30, V L63, H L30, Q L29 *)
  Definition plus (k : kind) (v d : list F) : list F := match k with Point | Vector => vplus F fadd v d | Homogeneous | Quaternion => updateQuat v d end.
  (* updateImplementation P L23-32, V L57-64, H L26-32, Q L23-31 *)
  Definition mupdate (x : mdv) (d : list F) (m : mem) : mdv * mem :=
    let v := plus (d_kind x) (m (d_at x)) d in (mkMdv (d_kind x) (d_at x) (m (d_at x)) (refresh (d_kind x) v (d_C x)), write m (d_at x) v).
  (* revertUpdateImplementation P L17-20, V L50-53, H L20-23, Q L16-20 *)
  Definition mrevert (x : mdv) (m : mem) : mdv * mem := (mkMdv (d_kind x) (d_at x) (d_prev x) (refresh (d_kind x) (d_prev x) (d_C x)), write m (d_at x) (d_prev x)).
  (* setParametersImplementation P L65-69, V L101-105, H L65-69, Q L63-68 *)
  Definition msetParameters (x : mdv) (v : list F) (m : mem) : mdv * mem := (mkMdv (d_kind x) (d_at x) (m (d_at x)) (refresh (d_kind x) v (d_C x)), write m (d_at x) v).
  (* set: MappedEuclideanPoint.hpp L30, MappedRotationQuaternion.hpp L32; the other two have no such function, the model leaves them alone *)
  Definition mset (x : mdv) (v : list F) (m : mem) : mdv * mem :=
    match d_kind x with Point | Quaternion => (mkMdv (d_kind x) (d_at x) v (d_C x), write m (d_at x) v) | _ => (x, m) end.
  (* updateMap V L38-46; the others have no such function *)
  Definition mremap (x : mdv) (a : nat) (m : mem) : mdv * mem := match d_kind x with Vector => (mkMdv Vector a (m a) (d_C x), m) | _ => (x, m) end.
  (* what expressions get: evaluateImplementation (P L40-43, V L75-79), toHomogeneousImplementation H L40-43, toRotationMatrixImplementation Q L38-41 *)
  Definition mvalue (x : mdv) (m : mem) : list F := match d_kind x with Quaternion => d_C x | _ => m (d_at x) end.
  (* getParametersImplementation P L60-63, V L95-98, H L60-63, Q L58-61 *)
  Definition mparams (x : mdv) (m : mem) : list F := m (d_at x).

  (* calls on one object *)
  (* in the model only: the functions above as data *)
  Inductive call := Update (d : list F) | Revert | SetParameters (v : list F) | SetValue (v : list F) | Remap (a : nat).
  (* the functions above *)
  (* in the model only: dispatch *)
  Definition do_call (c : call) (x : mdv) (m : mem) : mdv * mem :=
    match c with Update d => mupdate x d m | Revert => mrevert x m | SetParameters v => msetParameters x v m | SetValue v => mset x v m | Remap a => mremap x a m end.
  (* the design variables and the memory; the caller may also write to its own memory *)
  (* in the model only: helper *)
  Definition world := (list mdv * mem)%type.
  (* a program of the caller: calls of the functions above and writes through the pointer handed to the constructors (P L6, V L6, H L7, Q L10) *)
  Inductive event := Call (i : nat) (c : call) | Write (a : nat) (v : list F).
  (* one call or one write *)
  (* same code: P L6, V L6, H L7, Q L10 *)
  Definition step (w : world) (e : event) : world :=
    match e with
    | Call i c => match nth_error (fst w) i with Some x => let y := do_call c x (snd w) in (upd (fst w) i (fst y), snd y) | None => w end
    | Write a v => (fst w, write (snd w) a v)
    end.

  (* the loops over all design variables: Optimizer2.cpp L280-285 (ProblemManager.cpp L193-198; segments of dx already cut and scaled) and L299-301 (ProblemManager.cpp L205-206) *)
  Fixpoint update_all (l : list mdv) (ds : list (list F)) (m : mem) : list mdv * mem :=
    match l, ds with x :: l', d :: ds' => let y := mupdate x d m in let r := update_all l' ds' (snd y) in (fst y :: fst r, snd r) | _, _ => (l, m) end.
  (* same code: Optimizer2.cpp L280-285, ProblemManager.cpp L193-198, L299-301, ProblemManager.cpp L205-206 *)
  Fixpoint revert_all (l : list mdv) (m : mem) : list mdv * mem :=
    match l with x :: l' => let y := mrevert x m in let r := revert_all l' (snd y) in (fst y :: fst r, snd r) | [] => ([], m) end.

  (* transformationToExpression T L7-16: qptr() and tptr() are the arrays aq and at_ of the transformation *)
  Definition map_transformation (aq at_ : nat) (m : mem) : world := let q := make Quaternion aq m in let t := make Point at_ (snd q) in ([fst q; fst t], snd t).
  (* the rotation matrix and the translation of the expression made from them, T L14 *)
  Definition expression_value (w : world) : option (list F * list F) := match fst w with [q; t] => Some (mvalue q (snd w), mvalue t (snd w)) | _ => None end.
End Mapped.
Arguments mkMdv {F}. Arguments d_kind {F}. Arguments d_at {F}. Arguments d_prev {F}. Arguments d_C {F}. Arguments write {F}. Arguments Update {F}. Arguments Revert {F}. Arguments SetParameters {F}. Arguments SetValue {F}. Arguments Remap {F}.
Arguments Call {F}. Arguments Write {F}. Arguments mvalue {F}. Arguments mparams {F}. Arguments expression_value {F}.
