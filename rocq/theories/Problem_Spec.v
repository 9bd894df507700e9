(** * Specification of OptimizationProblem *)
From Coq Require Import Arith List Bool.
From Verif Require Import Problem_Model.
Import ListNotations.

(** l without the first occurrence of x *)
Fixpoint drop_first (x : nat) (l : list nat) : list nat :=
  match l with [] => [] | y :: t => if y =? x then t else y :: drop_first x t end.
Definition member (x : nat) (l : list nat) : bool := existsb (Nat.eqb x) l.

Section Spec.
Variable lists : nat -> list nat.
(** ** The specification: plain lists *)
Record spec := mkSpec { s_dvs : list nat; s_terms : list nat; s_ns : list nat }.
Definition spec_step (o : op) (s : spec) : spec :=
  match o with
  | AddDV v => if member v (s_dvs s) then s else mkSpec (s_dvs s ++ [v]) (s_terms s) (s_ns s)
  | AddET t => mkSpec (s_dvs s) (s_terms s ++ [t]) (s_ns s)
  | AddNS t => mkSpec (s_dvs s) (s_terms s) (s_ns s ++ [t])
  | RemET t => mkSpec (s_dvs s) (drop_first t (s_terms s)) (s_ns s)
  | RemDV v => mkSpec (filter (fun y => negb (y =? v)) (s_dvs s))
                 (filter (fun t => negb (member v (lists t))) (s_terms s)) (s_ns s)
  | Clear => mkSpec [] [] []
  end.
Definition spec_run (h : list op) : spec := fold_left (fun s o => spec_step o s) h (mkSpec [] [] []).

End Spec.
