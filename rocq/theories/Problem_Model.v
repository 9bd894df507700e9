(** * Model of OptimizationProblem

    aslam_backend/src/OptimizationProblem.cpp.
    Release build (the *_DBG assertions are compiled out).
    Pointers are identifiers.  An error term is freed when the problem drops its last reference
    to it and nobody outside holds a reference. *)
From Coq Require Import Arith Lia List Bool.
From Verif Require Import Lib_Res.
Import ListNotations.

Section Problem.
(** designVariable(0..n-1) of squared and of non-squared error terms; ErrorTerm.cpp L45-54,
    implementation/ErrorTerm.hpp L14-24.  The list does not change after construction. *)
Variables (lists nlists : nat -> list nat).
(** does somebody outside the problem keep the error term alive
    (sm::null_deleter, L51-56, or another shared_ptr) *)
Variable outside : nat -> bool.

(** the members, OptimizationProblem.hpp: _designVariables, _errorTerms, _errorTermMap,
    _sNSErrorTerms, _errorTermMapSns; [freed] is the set of error terms whose memory was released *)
Record prob := mkProb {
  p_dvs : list nat; p_terms : list nat; p_map : list (nat * nat);
  p_ns : list nat; p_nsmap : list (nat * nat); p_freed : list nat }.

(* OptimizationProblem.hpp L82-83 after construction *)
Definition empty_prob : prob := mkProb [] [] [] [] [] [].

(* in the model only: lists *)
Definition mem (x : nat) (l : list nat) : bool := existsb (Nat.eqb x) l.

(** vector::erase of the first element equal to x, L202-209 / L229-234 *)
Fixpoint erase1 (x : nat) (l : list nat) : list nat :=
  match l with [] => [] | y :: t => if y =? x then t else y :: erase1 x t end.
(** multimap: equal_range(v) in insertion order, L160, L185, L218 *)
Definition equal_range (v : nat) (m : list (nat * nat)) : list nat :=
  map snd (filter (fun e => fst e =? v) m).
(** erase the first entry (v, t), L186-192 *)
Fixpoint map_erase1 (v t : nat) (m : list (nat * nat)) : list (nat * nat) :=
  match m with
  | [] => []
  | e :: r => if (fst e =? v) && (snd e =? t) then r else e :: map_erase1 v t r
  end.

(** addDesignVariable, L23-43 *)
Definition addDesignVariable (v : nat) (p : prob) : res prob :=
  if mem v (p_dvs p) then Throw
  else Ok (mkProb (p_dvs p ++ [v]) (p_terms p) (p_map p) (p_ns p) (p_nsmap p) (p_freed p)).

(** addErrorTerm (squared), L71-81; reads the term *)
Definition addErrorTerm (t : nat) (p : prob) : res prob :=
  if mem t (p_freed p) then UB else
  Ok (mkProb (p_dvs p) (p_terms p ++ [t]) (p_map p ++ map (fun v => (v, t)) (lists t))
        (p_ns p) (p_nsmap p) (p_freed p)).

(** addErrorTerm (non-squared), L84-94 *)
Definition addErrorTermNS (t : nat) (p : prob) : res prob :=
  Ok (mkProb (p_dvs p) (p_terms p) (p_map p) (p_ns p ++ [t])
        (p_nsmap p ++ map (fun v => (v, t)) (nlists t)) (p_freed p)).

(** isDesignVariableInProblem, L97-104 *)
Definition isDesignVariableInProblem (v : nat) (p : prob) : bool := mem v (p_dvs p).

(** what clearing/erasing shared pointers frees *)
(* in the model only: boost::shared_ptr *)
Definition newly_freed (dropped kept : list nat) : list nat :=
  filter (fun t => negb (mem t kept) && negb (outside t)) dropped.

(** clear, L107-114 (the non-squared terms are not tracked for freeing) *)
Definition clear (p : prob) : res prob :=
  Ok (mkProb [] [] [] [] [] (newly_freed (p_terms p) [] ++ p_freed p)).

(** removeErrorTerm, L179-210: first the map entries, then the vector *)
Definition removeErrorTerm (t : nat) (p : prob) : res prob :=
  if mem t (p_freed p) then UB else
  let m := fold_left (fun m v => map_erase1 v t m) (lists t) (p_map p) in
  let ts := erase1 t (p_terms p) in
  Ok (mkProb (p_dvs p) ts m (p_ns p) (p_nsmap p)
        ((if mem t (p_terms p) then newly_freed [t] ts else []) ++ p_freed p)).

(* the loop at OptimizationProblem.cpp L219-221 *)
Fixpoint removeErrorTerms (ts : list nat) (p : prob) : res prob :=
  match ts with [] => Ok p | t :: r => do p' <- removeErrorTerm t p; removeErrorTerms r p' end.

(** removeDesignVariable, L213-236 *)
Definition removeDesignVariable (v : nat) (p : prob) : res prob :=
  do p' <- removeErrorTerms (equal_range v (p_map p)) p;
  Ok (mkProb (erase1 v (p_dvs p')) (p_terms p') (p_map p') (p_ns p') (p_nsmap p') (p_freed p')).

(** getErrors, L156-166, and getNonSquaredErrors, L168-176: the elements of the std::set *)
Definition getErrors (v : nat) (p : prob) : list nat := equal_range v (p_map p).
(* same code: L156-166, L168-176, std::set *)
Definition getNonSquaredErrors (v : nat) (p : prob) : list nat := equal_range v (p_nsmap p).

(** countActiveDesignVariables, L238-246 *)
Definition countActiveDesignVariables (active : nat -> bool) (p : prob) : nat :=
  fold_left (fun c v => if active v then S c else c) (p_dvs p) 0.

(** calls of the public interface *)
(* in the model only: OptimizationProblem.hpp as data *)
Inductive op := AddDV (v : nat) | AddET (t : nat) | AddNS (t : nat) | RemET (t : nat) | RemDV (v : nat) | Clear.
(* in the model only: dispatch *)
Definition step (o : op) (p : prob) : res prob :=
  match o with
  | AddDV v => addDesignVariable v p | AddET t => addErrorTerm t p | AddNS t => addErrorTermNS t p
  | RemET t => removeErrorTerm t p | RemDV v => removeDesignVariable v p | Clear => clear p
  end.
(** a history: a call that throws leaves the object unchanged (the throwing checks come before any
    modification) and the caller goes on; undefined behaviour ends the history *)
(* in the model only: a sequence of calls *)
Fixpoint run (h : list op) (p : prob) : option prob :=
  match h with
  | [] => Some p
  | o :: r => match step o p with Ok p' => run r p' | Throw => run r p | UB => None end
  end.
End Problem.
