(** * Vocabulary of the statements about SimpleOptimizationProblem *)
From Coq Require Import Arith List Bool.
From Verif Require Import Lib_Res SProb_Model.
Import ListNotations.

(* the calls up to and including the last clear(), and the calls after it *)
Fixpoint split_clear (h bef acc : list sop) : list sop * list sop :=
  match h with [] => (bef, acc) | Clear :: r => split_clear r (bef ++ acc ++ [Clear]) [] | o :: r => split_clear r bef (acc ++ [o]) end.
Definition before (h : list sop) : list sop := fst (split_clear h [] []).
Definition recent (h : list sop) : list sop := snd (split_clear h [] []).
(* design variables handed over, each once, in the order of their first call *)
Fixpoint distinct (l seen : list nat) : list nat := match l with [] => seen | x :: r => distinct r (if existsb (Nat.eqb x) seen then seen else seen ++ [x]) end.
Definition added_dvs (h : list sop) : list nat := distinct (flat_map (fun o => match o with AddDv _ v => [v] | _ => [] end) h) [].
Definition added_ets (h : list sop) : list nat := flat_map (fun o => match o with AddEt _ t => [t] | _ => [] end) h.
Definition added_nts (h : list sop) : list nat := flat_map (fun o => match o with AddNs _ t => [t] | _ => [] end) h.
(* objects whose ownership is given to the problem *)
Definition owned_dvs (h : list sop) : list nat := flat_map (fun o => match o with AddDv Owned v => [v] | _ => [] end) h.
Definition owned_ets (h : list sop) : list nat := flat_map (fun o => match o with AddEt Owned t => [t] | _ => [] end) h.
