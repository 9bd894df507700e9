(** * Specification for Jacobian accumulation, independent of the containers.

    An expression evaluation is a sequence of events; [cruns] says which contributions it makes:
    each added Jacobian is multiplied by the product of the chain-rule factors in force. *)
From Coq Require Import Arith Lia List ZArith NArith.
From Verif Require Import Lib_Ring MatrixStack_Spec DesignVar_Base.
Import ListNotations.

Section Spec.
Context {K : Type} {R : CRing K}.
Notation dvar := (dvar K).

Inductive event :=
| EApply (f : @factor K)              (* enter a chain-rule scope with factor f *)
| EEnd                                (* leave the innermost scope *)
| EAdd (d : dvar) (r : nat) (J : mat K)  (* add the r x dim(d) Jacobian J of design variable d *)
| EAddId (d : dvar).                  (* add the identity *)

Definition contribution := (dvar * mat K)%type.

Inductive cruns (n al : nat) : list (@factor K) -> list event -> list contribution -> list (@factor K) -> Prop :=
| cr_nil : forall fs, cruns n al fs [] [] fs
| cr_apply : forall fs f evs cs fs',
    match f with FMat r _ _ => r = prod_cols n fs | FScal _ => True end ->
    fits n al (f :: fs) ->
    cruns n al (f :: fs) evs cs fs' -> cruns n al fs (EApply f :: evs) cs fs'
| cr_end : forall f fs evs cs fs',
    cruns n al fs evs cs fs' -> cruns n al (f :: fs) (EEnd :: evs) cs fs'
| cr_add : forall fs d r J evs cs fs',
    r = prod_cols n fs ->
    cruns n al fs evs cs fs' ->
    cruns n al fs (EAdd d r J :: evs) ((d, mmul r (prod_mat n fs) J) :: cs) fs'
| cr_addid : forall fs d evs cs fs',
    dv_dim d = prod_cols n fs ->
    cruns n al fs evs cs fs' ->
    cruns n al fs (EAddId d :: evs) ((d, prod_mat n fs) :: cs) fs'.

(** total derivative with respect to design variable d: sum of its contributions *)
Definition total (cs : list contribution) (d : dvar) : mat K :=
  fun i j => lsum (filter (fun c => Nat.eqb (dv_id (fst c)) (dv_id d)) cs) (fun c => snd c i j).

Definition event_dvs (evs : list event) : list dvar :=
  flat_map (fun e => match e with EAdd d _ _ => [d] | EAddId d => [d] | _ => [] end) evs.

(** design variables are told apart by their identity, active ones have a
    non-negative and unique block index (this is what problem initialisation establishes) *)
Definition wf_dvs (ds : list dvar) : Prop :=
  (forall d d', In d ds -> In d' ds -> dv_id d = dv_id d' -> d = d') /\
  (forall d, In d ds -> dv_active d = true -> (0 <= dv_block d)%Z) /\
  (forall d d', In d ds -> In d' ds -> dv_active d = true -> dv_active d' = true ->
     dv_block d = dv_block d' -> d = d').

(** column ranges of active design variables are inside the matrix and disjoint *)
Definition wf_cols (cols : nat) (ds : list dvar) : Prop :=
  (forall d, In d ds -> dv_active d = true ->
     (0 <= dv_col d)%Z /\ (dv_col d + Z.of_nat (dv_dim d) <= Z.of_nat cols)%Z) /\
  (forall d d', In d ds -> In d' ds -> dv_active d = true -> dv_active d' = true -> d <> d' ->
     (dv_col d + Z.of_nat (dv_dim d) <= dv_col d')%Z \/ (dv_col d' + Z.of_nat (dv_dim d') <= dv_col d)%Z).

(** ** Error terms for the normal equations *)
Record eterm := mkET {
  et_dim : nat;                  (* number of error rows *)
  et_events : list event;        (* what evaluating its Jacobians does *)
  et_contrib : list contribution;(* the contributions, given by [cruns] *)
  et_error : vec K; et_sqrtInvR : mat K; et_sqrtw : K }.

(** J_t(d): total derivative of term t with respect to d *)
Definition Jt (t : eterm) (d : dvar) : mat K := total (et_contrib t) d.
(** W_t = w S S^T with w = sqrtw^2 *)
Definition Wt (t : eterm) : mat K :=
  mscale (kmul (et_sqrtw t) (et_sqrtw t))
    (mmul (et_dim t) (et_sqrtInvR t) (mtr (et_sqrtInvR t))).
(** entry (i,j) of J_t(d1)^T W_t J_t(d2) and entry k of J_t(d)^T W_t e_t *)
Definition JtWJ (t : eterm) (d1 d2 : dvar) (i j : nat) : K :=
  ksum (et_dim t) (fun p => ksum (et_dim t) (fun q => kmul (kmul (Jt t d1 p i) (Wt t p q)) (Jt t d2 q j))).
Definition JtWe (t : eterm) (d : dvar) (k : nat) : K :=
  ksum (et_dim t) (fun p => ksum (et_dim t) (fun q => kmul (kmul (Jt t d p k) (Wt t p q)) (et_error t q))).

Definition wf_eterm (al : nat) (ds : list dvar) (t : eterm) : Prop :=
  (N.of_nat (et_dim t) < 65536)%N /\ incl (event_dvs (et_events t)) ds /\
  exists fs, cruns (et_dim t) al [] (et_events t) (et_contrib t) fs.

(** [base b] is the first row of block b in the stacked unknown vector; the blocks do not overlap *)
Definition wf_base (base : nat -> nat) (ds : list dvar) : Prop :=
  forall d d', In d ds -> In d' ds -> dv_active d = true -> dv_active d' = true -> d <> d' ->
    base (Z.to_nat (dv_block d)) + dv_dim d <= base (Z.to_nat (dv_block d')) \/
    base (Z.to_nat (dv_block d')) + dv_dim d' <= base (Z.to_nat (dv_block d)).
End Spec.
