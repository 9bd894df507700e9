(** * What it means that a design variable shows the memory it maps *)
From Coq Require Import List Arith Bool.
From Verif Require Import Lib_Res DV_Model Mapped_Model.
Import ListNotations.

Section Spec.
  Variable F : Type.
  Variables (fadd : F -> F -> F) (updateQuat : list F -> list F -> list F) (quat2r : list F -> list F) (normalise : list F -> list F).
  Notation world := (world F). Notation event := (event F). Notation step := (step F fadd updateQuat quat2r).
  (* the value that goes with a memory content: the rotation matrix for quaternions *)
  Definition goes_with (k : kind) (v : list F) : list F := match k with Quaternion => quat2r v | _ => v end.
  (* expressions see, and getParameters reports, what the memory holds now *)
  Definition shows (w : world) (i : nat) : Prop :=
    exists x, nth_error (fst w) i = Some x /\ mvalue x (snd w) = goes_with (d_kind x) (snd w (d_at x)) /\ mparams x (snd w) = snd w (d_at x).
  (* design variable number i is not a quaternion; it maps the address a *)
  Definition not_a_quaternion (w : world) (i : nat) : Prop := exists x, nth_error (fst w) i = Some x /\ d_kind x <> Quaternion.
  Definition at_address (w : world) (i a : nat) : Prop := exists x, nth_error (fst w) i = Some x /\ d_at x = a.
  (* an event that leaves the memory of number i to number i, and does not call its set *)
  Definition leaves (w : world) (i : nat) (e : event) : Prop :=
    match e with
    | Call j c => (j = i /\ forall v, c <> SetValue v) \/ (j <> i /\ forall a, at_address w i a -> ~ at_address w j a)
    | Write a v => ~ at_address w i a
    end.
  (* ... all along a program *)
  Fixpoint left_alone (i : nat) (w : world) (es : list event) : Prop := match es with [] => True | e :: es' => leaves w i e /\ left_alone i (step w e) es' end.
  Definition runs (w : world) (es : list event) : world := fold_left step es w.
End Spec.
Arguments at_address {F}. Arguments not_a_quaternion {F}.
