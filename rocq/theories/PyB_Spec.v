(** * Python module: vocabulary of C88 *)
From Coq Require Import Arith List ZArith Bool.
From Verif Require Import Lib_Ring Lib_Res SBM_Model SBM_Spec PyB_Model.
Import ListNotations.

Section Spec.
  Context {K : Type} {R : CRing K}.
  (** what a Python program does to a block matrix *)
  Inductive mop := OSet (r c : Z) (n k : nat) (B : mat K) | OClear (dealloc : bool).
  Definition mstep (m : pmat K) (o : mop) : res unit * pmat K :=
    match o with OSet r c n k B => py_setBlock m r c (n, k, B) | OClear d => (Ok tt, py_clear m d) end.
  Fixpoint mrun (m : pmat K) (l : list mop) : list (res unit) * pmat K :=
    match l with [] => ([], m) | o :: l' => let '(x, m1) := mstep m o in let '(xs, m2) := mrun m1 l' in (x :: xs, m2) end.

  Definition within (l : list nat) (i : Z) : Prop := (0 <= i < Z.of_nat (length l))%Z.
  (** a block that is put at an existing position has the size of this position *)
  Definition fits (rbi cbi : list nat) (o : mop) : Prop :=
    match o with OSet r c n k _ => within rbi r -> within cbi c -> n = bsize rbi (Z.to_nat r) /\ k = bsize cbi (Z.to_nat c) | OClear _ => True end.
  (** the answer: an exception for a position that does not exist *)
  Definition answer (rbi cbi : list nat) (o : mop) (x : res unit) : Prop :=
    match o with OSet r c _ _ _ => (within rbi r /\ within cbi c -> x = Ok tt) /\ (~ (within rbi r /\ within cbi c) -> x = Throw) | OClear _ => x = Ok tt end.
  (** [A'] is the dense matrix [A] after the operation *)
  Definition effect (rbi cbi : list nat) (A : mat K) (o : mop) (A' : mat K) : Prop :=
    match o with
    | OSet r c _ _ B =>
      (within rbi r -> within cbi c -> forall p q, p < total rbi -> q < total cbi ->
        (forall i j, i < bsize rbi (Z.to_nat r) -> j < bsize cbi (Z.to_nat c) -> p = base rbi (Z.to_nat r) + i -> q = base cbi (Z.to_nat c) + j -> A' p q = B i j) /\
        (~ (base rbi (Z.to_nat r) <= p < base rbi (Z.to_nat r) + bsize rbi (Z.to_nat r) /\ base cbi (Z.to_nat c) <= q < base cbi (Z.to_nat c) + bsize cbi (Z.to_nat c)) -> A' p q = A p q)) /\
      (~ (within rbi r /\ within cbi c) -> forall p q, p < total rbi -> q < total cbi -> A' p q = A p q)
    | OClear _ => forall p q, p < total rbi -> q < total cbi -> A' p q = k0
    end.
  Inductive effects (rbi cbi : list nat) : mat K -> list mop -> mat K -> Prop :=
  | eff_nil : forall A, effects rbi cbi A [] A
  | eff_cons : forall A o A1 l A2, effect rbi cbi A o A1 -> effects rbi cbi A1 l A2 -> effects rbi cbi A (o :: l) A2.

  (** [d] is the n x k matrix [A] *)
  Definition is_matrix (d : res (dmat K)) (n k : nat) (A : mat K) : Prop :=
    exists D, d = Ok (n, k, D) /\ forall p q, p < n -> q < k -> D p q = A p q.
  (** every question is answered as the dense matrix [A] would *)
  Record looks_like (m : pmat K) (rbi cbi : list nat) (A : mat K) : Prop := {
    ll_dense : is_matrix (py_toDense m) (total rbi) (total cbi) A;
    ll_symmetric : total rbi = total cbi -> is_matrix (py_toDenseSymmetric m) (total rbi) (total cbi) (symm A);
    ll_at : forall r c, (0 <= r < Z.of_nat (total rbi))%Z -> (0 <= c < Z.of_nat (total cbi))%Z -> py_at m r c = Ok (A (Z.to_nat r) (Z.to_nat c));
    ll_at_out : forall r c, ~ ((0 <= r < Z.of_nat (total rbi))%Z /\ (0 <= c < Z.of_nat (total cbi))%Z) -> py_at m r c = Throw;
    ll_get : forall r c, within rbi r -> within cbi c ->
      is_matrix (py_getBlock m r c) (bsize rbi (Z.to_nat r)) (bsize cbi (Z.to_nat c)) (fun i j => A (base rbi (Z.to_nat r) + i) (base cbi (Z.to_nat c) + j));
    ll_get_out : forall r c, ~ (within rbi r /\ within cbi c) -> py_getBlock m r c = Throw }.
End Spec.
Arguments mop K : clear implicits.

(** ** Callbacks *)
Import Callback_Model.
Inductive cop := CAdd (callable : bool) (a : event_arg) (c : nat) | CClear (o : option nat) | CClearAll.
Definition cstep (r : registry) (o : cop) : res unit * registry :=
  match o with CAdd b a c => py_add b a c r | CClear o => py_clear_event o r | CClearAll => (Ok tt, clear_all r) end.
Fixpoint crun (r : registry) (l : list cop) : list (res unit) * registry :=
  match l with [] => ([], r) | o :: l' => let '(x, r1) := cstep r o in let '(xs, r2) := crun r1 l' in (x :: xs, r2) end.
(** the events named in an argument *)
Definition named (a : event_arg) : list (option nat) := match a with One o => [o] | Many l => l end.
(** does the operation take the callbacks off event [e]? *)
Definition wipes (e : nat) (o : cop) : bool := match o with CClear (Some e') => Nat.eqb e e' | CClearAll => true | _ => false end.
(** the callables for [e] after a history (oldest first): in the order in which they were added, as often as [e] was named, unless wiped later *)
Fixpoint present (e : nat) (h : list cop) : list nat :=
  match h with
  | [] => []
  | CAdd true a c :: t => (if existsb (wipes e) t then [] else repeat c (length (filter (fun o => match o with Some e' => Nat.eqb e e' | None => false end) (named a)))) ++ present e t
  | _ :: t => present e t
  end.
(** an operation whose arguments are all right *)
Definition proper (o : cop) : Prop :=
  match o with CAdd b a _ => b = true /\ ~ In None (named a) | CClear o => o <> None | CClearAll => True end.
(** no list of events contains something that is not an event *)
Definition clean (o : cop) : Prop := match o with CAdd true (Many l) _ => ~ In None l | _ => True end.
