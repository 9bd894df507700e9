(** * Model of SimpleOptimizationProblem

    aslam_backend/src/SimpleOptimizationProblem.cpp ("P"), OptimizationProblemBase.cpp ("B"). Release build.
    Objects are identifiers, separately for design variables, squared and non-squared error terms. *)
From Coq Require Import Arith Lia List Bool.
From Verif Require Import Lib_Res.
Import ListNotations.

(* how an object is handed over: shared_ptr(p), which deletes p (problemOwnsVariable = true); shared_ptr(p, null_deleter()); a shared_ptr of which the caller keeps a copy *)
(* in the model only: boost::shared_ptr and its deleters *)
Inductive holder := Owned | Borrowed | Shared.
(* in the model only: an element with its holder *)
Definition entry := (nat * holder)%type.
(* SimpleOptimizationProblem.hpp L67-69; the lists s_free* are the objects whose memory was released *)
Record sprob := mkSP { s_dvs : list entry; s_ets : list entry; s_nts : list entry; s_freeD : list nat; s_freeE : list nat; s_freeN : list nat }.
(* P L10-12 *)
Definition sempty : sprob := mkSP [] [] [] [] [] [].

(* in the model only: lists *)
Definition has (x : nat) (l : list nat) : bool := existsb (Nat.eqb x) l.
(* ~shared_ptr for each entry: delete for an owned object; deleting twice is undefined *)
(* SimpleOptimizationProblem.hpp: the destructors of its shared_ptr members *)
Fixpoint release (l : list entry) (freed : list nat) : res (list nat) :=
  match l with
  | [] => Ok freed
  | (p, Owned) :: r => if has p freed then UB else release r (p :: freed)
  | (_, _) :: r => release r freed
  end.
(* P L22-33, L37-44: throws when the design variable is already there *)
Definition addDesignVariable (h : holder) (v : nat) (s : sprob) : res sprob :=
  if has v (map fst (s_dvs s)) then Throw else Ok (mkSP (s_dvs s ++ [(v, h)]) (s_ets s) (s_nts s) (s_freeD s) (s_freeE s) (s_freeN s)).
(* P L49-56, L68-71 *)
Definition addErrorTerm (h : holder) (t : nat) (s : sprob) : res sprob := Ok (mkSP (s_dvs s) (s_ets s ++ [(t, h)]) (s_nts s) (s_freeD s) (s_freeE s) (s_freeN s)).
(* P L57-64, L72-75 *)
Definition addNonSquared (h : holder) (t : nat) (s : sprob) : res sprob := Ok (mkSP (s_dvs s) (s_ets s) (s_nts s ++ [(t, h)]) (s_freeD s) (s_freeE s) (s_freeN s)).
(* P L88-92 *)
Definition clear (s : sprob) : res sprob :=
  do fe <- release (s_ets s) (s_freeE s);
  do fd <- release (s_dvs s) (s_freeD s);
  Ok (mkSP [] [] (s_nts s) fd fe (s_freeN s)).
(* P L78-85 *)
Definition isDesignVariableInProblem (v : nat) (s : sprob) : bool := existsb (fun e => fst e =? v) (s_dvs s).
(* P L95-98, L111-118; B L46-49 *)
Definition numDesignVariables (s : sprob) : nat := length (s_dvs s).
(* same code: P L95-98, L111-118, B L46-49 *)
Definition numErrorTerms (s : sprob) : nat := length (s_ets s).
(* same code: P L95-98, L111-118, B L46-49 *)
Definition numNonSquaredErrorTerms (s : sprob) : nat := length (s_nts s).
(* same code: P L95-98, L111-118, B L46-49 *)
Definition numTotalErrorTerms (s : sprob) : nat := numErrorTerms s + numNonSquaredErrorTerms s.
(* same code: P L95-98, L111-118, B L46-49 *)
Definition at_ (l : list entry) (i : nat) : res nat := match nth_error l i with Some e => Ok (fst e) | None => UB end.
(* P L100-108, L120-136; B L22-33, L52-74: the bounds are only checked in debug builds *)
Definition designVariable (s : sprob) (i : nat) : res nat := at_ (s_dvs s) i.
(* same code: P L100-108, L120-136, B L22-33, L52-74 *)
Definition errorTerm (s : sprob) (i : nat) : res nat := at_ (s_ets s) i.
(* same code: P L100-108, L120-136, B L22-33, L52-74 *)
Definition nonSquaredErrorTerm (s : sprob) (i : nat) : res nat := at_ (s_nts s) i.
(* P L138-145 *)
Definition getErrors (s : sprob) (v : nat) : res (list nat) := Throw.

(* in the model only: the public functions as data *)
Inductive sop := AddDv (h : holder) (v : nat) | AddEt (h : holder) (t : nat) | AddNs (h : holder) (t : nat) | Clear.
(* in the model only: dispatch *)
Definition sstep (o : sop) (s : sprob) : res sprob := match o with AddDv h v => addDesignVariable h v s | AddEt h t => addErrorTerm h t s | AddNs h t => addNonSquared h t s | Clear => clear s end.
(* a history of calls by a user who catches exceptions: a call that throws changes nothing *)
(* in the model only: a sequence of calls *)
Fixpoint srun (h : list sop) (s : sprob) : res sprob :=
  match h with [] => Ok s | o :: r => match sstep o s with Ok s' => srun r s' | Throw => srun r s | UB => UB end end.

(* what ProblemManager does with the problem first (ProblemManager.cpp L39-96): it reads every error term and the design variables of every error term ([uses], ErrorTerm.hpp);
   reading a released object is undefined *)
Definition read_all (uses usesN : nat -> list nat) (s : sprob) : res unit :=
  if forallb (fun e => negb (has (fst e) (s_freeE s)) && forallb (fun v => negb (has v (s_freeD s))) (uses (fst e))) (s_ets s)
    && forallb (fun e => negb (has (fst e) (s_freeN s)) && forallb (fun v => negb (has v (s_freeD s))) (usesN (fst e))) (s_nts s)
    && forallb (fun e => negb (has (fst e) (s_freeD s))) (s_dvs s)
  then Ok tt else UB.
