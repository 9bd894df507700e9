(** * What keeping alive means (C84) *)
From Coq Require Import Arith List Bool Lia.
From Verif Require Import Lib_Res Life_Model.
Import ListNotations.

(** the owning pointers to [i]: those of the program's expressions and those of the objects still alive *)
Definition is_owner (i : nat) (q : option ptr) : bool := match q with Some p => (p_to p =? i) && p_own p | None => false end.
Definition count_owners (i : nat) (qs : list (option ptr)) : nat := length (filter (is_owner i) qs).
Definition var_owners (s : state) (i : nat) : nat := list_sum (map (fun v => match v with Some q => count_owners i [q] | None => 0 end) (vars s)).
Definition obj_owners (s : state) (i : nat) : nat := list_sum (map (fun x => if x_live x then count_owners i (x_ops x) else 0) (objs s)).
Definition owners (s : state) (i : nat) : nat := var_owners s i + obj_owners s i.

Definition alive (s : state) (i : nat) : Prop := exists x, nth_error (objs s) i = Some x /\ x_live x = true.
Definition managed (s : state) (i : nat) : Prop := exists x, nth_error (objs s) i = Some x /\ x_managed x = true.

(** following pointers through objects that are alive *)
Inductive reaches (s : state) : option ptr -> option ptr -> Prop :=
  | reach_here : forall q, reaches s q q
  | reach_on : forall p x o q, nth_error (objs s) (p_to p) = Some x -> x_live x = true -> In o (x_ops x) -> reaches s o q -> reaches s (Some p) q.

(** a pointer that does not own its object, to an object that is gone *)
Definition dangles (s : state) (q : option ptr) : Prop := exists p, q = Some p /\ p_own p = false /\ ~ alive s (p_to p).

Definition reachable (s : state) : Prop := exists p, run start p = Ok s.

(** the objects a program has taken plain pointers to *)
Definition pointed_to (p : list op) (i : nat) : Prop := In (FromPointer i) p.
