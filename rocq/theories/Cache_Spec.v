(** * What cached expressions should return (specification) *)
From Coq Require Import Arith List Bool.
From Verif Require Import Lib_Ring Cache_Model.
Import ListNotations.

Section S.
  Context {K : Type} {R : CRing K}.
  Variable N : @nodes K.

  (* value and Jacobian of the expression without its cache nodes; None is an exception *)
  Fixpoint pval (e : cx N) (s : nat -> vec K) : option (vec K) :=
    match e with
    | CVar _ d => Some (s d) | CConst _ v => Some v
    | CUn _ o a => match pval a s with Some x => val1 N o x | None => None end
    | CBin _ o a b => match pval a s, pval b s with Some x, Some y => val2 N o x y | _, _ => None end
    | CIf _ c a b => if test N c s then pval a s else pval b s
    | CCache _ _ e => pval e s
    end.
  Fixpoint pjac (e : cx N) (s : nat -> vec K) (act : nat -> bool) : option (@jac K) :=
    match e with
    | CVar _ d => Some (jleaf d (leaf N d (s d)) (act d)) | CConst _ v => Some jzero
    | CUn _ o a => match pval a s, pjac a s act with Some x, Some j => Some (jchain (fac1 N o x) j) | _, _ => None end
    | CBin _ o a b => match pval a s, pval b s, pjac a s act, pjac b s act with Some x, Some y, Some ja, Some jb => Some (jadd (jchain (fst (fac2 N o x y)) ja) (jchain (snd (fac2 N o x y)) jb)) | _, _, _, _ => None end
    | CIf _ c a b => if test N c s then pjac a s act else pjac b s act
    | CCache _ _ e => pjac e s act
    end.
  Definition answer (w : world N) (q : job N) : option (@datum K) :=
    match q with JobV _ e => option_map inl (pval e (vals N w)) | JobJ _ e => option_map inr (pjac e (vals N w) (active N w)) end.

  (* the cache nodes of e exist and wrap what they were created for *)
  Fixpoint wf (ds : list (cx N)) (e : cx N) : Prop :=
    match e with CVar _ _ | CConst _ _ => True | CUn _ _ a => wf ds a | CBin _ _ a b | CIf _ _ a b => wf ds a /\ wf ds b | CCache _ i e => nth_error ds i = Some e /\ wf ds e end.
  Definition job_ex (q : job N) : cx N := match q with JobV _ e | JobJ _ e => e end.
  Definition enabled (w : world N) (l : label N) : Prop := match l with LCache _ e => wf (defs N w) e | LSpawn _ js => Forall (fun q => wf (defs N w) (job_ex q)) js | _ => True end.
  (* executions *)
  Inductive runs : world N -> list (label N) -> world N -> Prop :=
  | runs_nil : forall w, runs w [] w
  | runs_cons : forall w l w1 ls w2, enabled w l -> step N w l = Some w1 -> runs w1 ls w2 -> runs w (l :: ls) w2.

  Fixpoint no_if (e : cx N) : Prop := match e with CVar _ _ | CConst _ _ => True | CUn _ _ a => no_if a | CBin _ _ a b => no_if a /\ no_if b | CIf _ _ _ _ => False | CCache _ _ e => no_if e end.
  (* no piecewise expression is cached, and no design variable is changed behind its caches' back *)
  Definition plain (l : label N) : Prop := match l with LCache _ e => no_if e | LSet _ _ _ => False | _ => True end.

  (** Activity discipline: after the first Jacobian was asked for, a variable whose activity was changed is updated, reverted or set before the next Jacobian is.
      The state is (a Jacobian was asked for, variables to be updated). *)
  Definition wants_J (q : job N) : bool := match q with JobJ _ _ => true | JobV _ _ => false end.
  Definition drop (d : nat) (l : list nat) : list nat := filter (fun x => negb (x =? d)) l.
  Fixpoint disciplined (started : bool) (pend : list nat) (ls : list (label N)) : Prop :=
    match ls with
    | [] => True
    | LUpdate _ d _ :: ls | LRevert _ d :: ls | LSetParameters _ d _ :: ls => disciplined started (drop d pend) ls
    | LActive _ d _ :: ls => disciplined started (if started then d :: pend else pend) ls
    | LSpawn _ js :: ls => if existsb wants_J js then pend = [] /\ disciplined true [] ls else disciplined started pend ls
    | _ :: ls => disciplined started pend ls
    end.

  (* the datum a thread writes or reads with its next step; a datum is being written from the step that begins to the step that ends the writing *)
  Definition writes (p : @prog K) (c : cell) : Prop := match p with PBegin c' _ | PEnd c' _ _ => c' = c | _ => False end.
  Definition reads (p : @prog K) (c : cell) : Prop := match p with PRead c' _ => c' = c | _ => False end.
  (* some thread takes a step *)
  Definition moves (w' w : world N) : Prop := exists i, step N w (LThread N i) = Some w'.
End S.
