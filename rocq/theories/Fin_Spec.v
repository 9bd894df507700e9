(** * Which numbers go into the Jacobian of a design variable *)
From Coq Require Import List Arith Bool ZArith.
From Verif Require Import Lib_Res Fin_Model.
Import ListNotations.

Section Spec.
  Variable F : Type.
  Variable fin : F -> bool.
  (* an arithmetic in which nothing turns a number that is not finite into a finite one again, as addition and multiplication of doubles *)
  Definition absorbing (fadd fmul : F -> F -> F) : Prop :=
    (forall a b, fin (fadd a b) = true -> fin a = true /\ fin b = true) /\ (forall a b, fin (fmul a b) = true -> fin a = true /\ fin b = true).
  (* all entries finite *)
  Definition finite (A : fm F) : Prop := forall i j, i < rows A -> j < cols A -> fin (at_ A i j) = true.
  (* chain rule factors: matrices and scalars; how many columns their product has *)
  Inductive factor := Mat (m : fm F) | Sca (a : F).
  Definition ffinite (f : factor) : Prop := match f with Mat m => finite m | Sca a => fin a = true end.
  Fixpoint width (r : nat) (l : list factor) : nat := match l with [] => r | Mat m :: _ => cols m | Sca _ :: l' => width r l' end.
  (* the factors in effect after each call, newest first, and what has been handed over for design variable d: the Jacobian, if it is not the identity, with its factors *)
  Definition follow (l : list factor) (o : cop F) : list factor := match o with Apply m => Mat m :: l | ApplyS a => Sca a :: l | End_ => tl l | _ => l end.
  Definition handed (d : dv) (l : list factor) (o : cop F) : Prop :=
    match o with
    | Add e A => v_active e = true -> v_block e = v_block d -> finite A /\ Forall ffinite l
    | AddId e => v_active e = true -> v_block e = v_block d -> Forall ffinite l
    | _ => True
    end.
  (* everything handed over for d is finite *)
  Fixpoint all_handed (d : dv) (l : list factor) (ops : list (cop F)) : Prop := match ops with [] => True | o :: ops' => handed d l o /\ all_handed d (follow l o) ops' end.
  (* nothing has been handed over for d *)
  Definition for_dv (d : dv) (o : cop F) : bool := match o with Add e _ | AddId e => v_active e && (v_block e =? v_block d)%Z | _ => false end.
  (* matrices have rows and columns; the chain fits a design variable that is added without a Jacobian; only design variables of one dimension and one block of columns have one block index *)
  Fixpoint sized (d : dv) (r : nat) (l : list factor) (ops : list (cop F)) : Prop :=
    match ops with
    | [] => True
    | o :: ops' =>
        match o with
        | Apply m => 0 < cols m
        | Add e A => v_block e = v_block d -> v_dim e = v_dim d /\ v_col e = v_col d
        | AddId e => v_block e = v_block d -> v_dim e = v_dim d /\ v_col e = v_col d /\ (l <> [] -> width r l = v_dim d)
        | _ => True
        end /\ sized d r (follow l o) ops'
    end.
End Spec.
Arguments Mat {F}. Arguments Sca {F}.
