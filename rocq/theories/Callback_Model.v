(** * The callback registry and the convergence status shared by the optimizers.
    Simplified: the registry map is a total function to lists (operator[] of std::map inserts an empty vector for an absent key, so an absent and
    an empty entry are the same for every caller); type_index is a number; a callback is the pointer of its implementation object.
    Not modelled: a callback that modifies the registry while it is being issued (iterator invalidation), exceptions from callbacks. *)
From Coq Require Import ZArith List Bool.
From Verif Require Import Lib_Float Optimizer2_Model.
Import ListNotations.

(* aslam_backend/include/aslam/backend/OptimizerCallback.hpp L80-84 *)
Inductive proceed := CONTINUE | SUCCEED | FAIL.

(* OptimizerCallbackManager.cpp L11-14: std::map<type_index, vector<OptimizerCallback>> *)
Definition registry := nat -> list nat.
(* OptimizerCallbackManager.cpp L16-18 *)
Definition empty_registry : registry := fun _ => [].

(* in the model only: std::map operator[] *)
Definition upd (r : registry) (e : nat) (l : list nat) : registry := fun x => if Nat.eqb x e then l else r x.

(* OptimizerCallbackManager.cpp L24-28 *)
Fixpoint add (events : list nat) (c : nat) (r : registry) : registry :=
  match events with
  | [] => r
  | e :: t => add t c (upd r e (r e ++ [c]))
  end.
(* OptimizerCallbackManager.cpp L29-35, with OptimizerCallback.hpp L141 (operator== compares the implementation pointers) *)
Fixpoint remove (events : list nat) (c : nat) (r : registry) : registry :=
  match events with
  | [] => r
  | e :: t => remove t c (upd r e (filter (fun x => negb (Nat.eqb x c)) (r e)))
  end.
(* OptimizerCallbackManager.cpp L36-38 *)
Definition clear_all (r : registry) : registry := empty_registry.
(* OptimizerCallbackManager.cpp L40-42 *)
Definition clear (e : nat) (r : registry) : registry := upd r e [].
(* OptimizerCallbackManager.cpp L44-46 *)
Definition numCallbacks (r : registry) (e : nat) : nat := length (r e).

(* OptimizerCallback.hpp L93-124: a functor that returns a ProceedInstruction, or one whose result is ignored *)
Inductive functor_ (W : Type) := FVerdict (f : nat -> W -> proceed * W) | FVoid (f : nat -> W -> W).
Arguments FVerdict {W}. Arguments FVoid {W}.
(* OptimizerCallback.hpp L97-123 *)
Definition call {W} (f : functor_ W) (e : nat) (w : W) : proceed * W :=
  match f with
  | FVerdict g => g e w
  | FVoid g => (CONTINUE, g e w)
  end.

(* OptimizerCallbackManager.cpp L48-56: runs the callbacks of event e; the third result is a ghost: the callbacks that were invoked, in order *)
Fixpoint issue_list {W} (impl : nat -> functor_ W) (e : nat) (l : list nat) (w : W) : proceed * W * list nat :=
  match l with
  | [] => (CONTINUE, w, [])
  | c :: t =>
    let '(v, w1) := call (impl c) e w in
    match v with
    | CONTINUE => let '(v', w2, cs) := issue_list impl e t w1 in (v', w2, c :: cs)
    | _ => (v, w1, [c])
    end
  end.
(* same code: OptimizerCallbackManager.cpp L48-56 *)
Definition issueCallback {W} (impl : nat -> functor_ W) (r : registry) (e : nat) (w : W) : proceed * W * list nat :=
  issue_list impl e (r e) w.

(* Optimizer2.cpp L395-398: Optimizer2::issueCallback drops the verdict of the manager *)
Definition with_callbacks {W D} (E : @env W D) (impl : nat -> functor_ W) (r : registry) (index : event -> nat) : @env W D :=
  mkEnv (eEval E) (eStart E) (eSolve E) (eSize E) (eApply E) (eRevert E)
    (fun ev w => snd (fst (issueCallback impl r (index ev) w))) (eRevertOnFailure E).

(** ** options and convergence status *)

(* OptimizerBase.hpp L59-64: the options; thread counts are left out *)
Record base_options := mkBaseOptions { oGradientNorm : b64; oDeltaX : b64; oDeltaError : b64; oMaxIterations : Z }.
(* OptimizerBase.cpp L37-44; SM_ASSERT_GE(x, y) throws unless x >= y *)
Definition check (o : base_options) : bool :=
  fge (oGradientNorm o) f0 && fge (oDeltaX o) f0 && fge (oDeltaError o) f0 &&
  (fgt (oDeltaX o) f0 || fgt (oGradientNorm o) f0 || fgt (oDeltaError o) f0) && (-1 <=? oMaxIterations o)%Z.

(* OptimizerBase.hpp L94-101: the status fields that updateConvergenceStatus reads and writes *)
Record base_status := mkBaseStatus { sConvergence : convergence; sGradientNorm : b64; sMaxDeltaX : b64; sDeltaError : b64 }.
(* OptimizerBase.cpp L58-62, OptimizerBase.hpp L94-101 *)
Definition reset_status : base_status := mkBaseStatus IN_PROGRESS NaN NaN NaN.

(* OptimizerBase.cpp L141-158 *)
Definition updateConvergenceStatus (o : base_options) (s : base_status) : base_status :=
  let set c := mkBaseStatus c (sGradientNorm s) (sMaxDeltaX s) (sDeltaError s) in
  if flt (sGradientNorm s) (oGradientNorm o) then set GRADIENT_NORM
  else if flt (fabs (sDeltaError s)) (oDeltaError o) then set DOBJECTIVE
  else if flt (sMaxDeltaX s) (oDeltaX o) then set DX
  else s.

(* OptimizerBase.cpp L69-72 *)
Definition failure (c : convergence) : bool := match c with FAILURE => true | _ => false end.
(* OptimizerBase.cpp L64-67 *)
Definition success (c : convergence) : bool := negb (match c with IN_PROGRESS => true | _ => false end) && negb (failure c).
(* implementation/OptimizerBaseImplementation.hpp L42-55 *)
Definition isConverged (c : convergence) : bool := success c.
(* same code: implementation/OptimizerBaseImplementation.hpp L42-55 *)
Definition isFailed (c : convergence) : bool := failure c.
(* same code: implementation/OptimizerBaseImplementation.hpp L42-55 *)
Definition isInProgress (c : convergence) : bool := negb (failure c) && negb (success c).
