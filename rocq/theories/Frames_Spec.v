(** * Coordinate frames as objects: vocabulary *)
From Coq Require Import Arith List Bool.
From Verif Require Import Lib_Res Scalar_Model Geo_Model Empty_Model Chain_Model Frames_Model.
Import ListNotations.

(* the frames from i up to the root, by address (l) and with what they were given relative to their parents (c) *)
Inductive chain (h : list fobj) : nat -> list nat -> list frame -> Prop :=
  | chain_root : forall i o, nth_error h i = Some o -> o_parent o = None -> chain h i [i] [o_local o]
  | chain_up : forall i o p l c, nth_error h i = Some o -> o_parent o = Some p -> chain h p l c -> chain h i (i :: l) (o_local o :: c).
(* the quantity of a chain: the expressions of C57 *)
Definition quantity (q : qty) (c : list frame) : handle vx := match q with QP => getP c | QOmega => getOmega c | QAlpha => getAlpha c | QV => getV c | QA => getA c end.

(* the frames named exist, none is moved from, and none that is some frame's parent is assigned to *)
Definition allowed (h : list fobj) (o : fop) : Prop :=
  match o with
  | NewDefault | NewRoot _ => True
  | NewChild p _ => p < length h
  | Move _ => False
  | Assign i j => i < length h /\ j < length h /\ forall k x, nth_error h k = Some x -> o_parent x <> Some i
  | GetR i | Get i _ => i < length h
  end.
(* in the course of the program *)
Fixpoint tame (h : list fobj) (p : list fop) : Prop :=
  match p with [] => True | o :: p' => allowed h o /\ forall a h', step h o = Ok (a, h') -> tame h' p' end.
(* what a getter is to return: the quantity of the frames as they are now *)
Definition right_answer (h : list fobj) (o : fop) (a : answer) : Prop :=
  match o with
  | GetR i => exists l c, chain h i l c /\ a = Rotation (getR c)
  | Get i q => exists l c, chain h i l c /\ a = Vector (quantity q c)
  | _ => a = Nothing
  end.
