(** * Cache expressions, histories of updates and concurrent evaluating threads

    aslam_backend_expressions/include/aslam/backend/CacheExpression.hpp ("CE"), aslam_backend/include/aslam/backend/CacheInterface.hpp ("CI"),
    aslam_backend/src/DesignVariable.cpp ("DC"), aslam_backend/include/aslam/backend/DesignVariable.hpp ("DH").
    Threads are interleaved step by step with sequentially consistent memory; a step reads or writes one flag, locks or unlocks one mutex, or reads, starts or ends
    writing one cached datum. Design variables do not change while threads evaluate (callers join them first). The wrapped nodes evaluate their operands whenever
    they need them; nodes that keep operand values of their own are the subject of C53. A Jacobian container is its content, a matrix per design variable; that containers and
    chain rules compute that content is the subject of C01-C05. *)
From Coq Require Import Arith List Bool.
From Verif Require Import Lib_Ring.
Import ListNotations.

Section C.
  Context {K : Type} {R : CRing K}.

  (** the expression nodes, operand values in, value or Jacobian factor out (with the number of columns of the factor); None is an exception *)
  Record nodes := {
    op1 : Type; val1 : op1 -> vec K -> option (vec K); fac1 : op1 -> vec K -> nat * mat K;
    op2 : Type; val2 : op2 -> vec K -> vec K -> option (vec K); fac2 : op2 -> vec K -> vec K -> (nat * mat K) * (nat * mat K);
    leaf : nat -> vec K -> mat K;                    (* Jacobian of a design variable's own node *)
    plus : nat -> vec K -> vec K -> vec K;           (* updateImplementation *)
    cond : Type; test : cond -> (nat -> vec K) -> bool  (* _useFirst of ScalarExpressionPiecewiseExpression, implementation/ScalarExpressionNode.hpp L236-254 *)
  }.
  Variable N : nodes.

  (* expressions; CCache i e is the cache node number i wrapped around e: CE L98-103 *)
  Inductive cx : Type :=
  | CVar (d : nat) | CConst (v : vec K) | CUn (o : op1 N) (a : cx) | CBin (o : op2 N) (a b : cx) | CIf (c : cond N) (a b : cx) | CCache (i : nat) (e : cx).

  (* getDesignVariables: CE L72-75 goes through to the wrapped node; a piecewise node reports the branch chosen now, src/ScalarExpressionNode.cpp L265-272 *)
  Fixpoint dvs (e : cx) (s : nat -> vec K) : list nat :=
    match e with CVar d => [d] | CConst _ => [] | CUn _ a => dvs a s | CBin _ a b => dvs a s ++ dvs b s | CIf c a b => if test N c s then dvs a s else dvs b s | CCache _ e => dvs e s end.

  (* the content of a Jacobian container: JacobianContainerSparse _jacobianMap *)
  (* JacobianContainerSparse.hpp L136 *)
  Definition jac := nat -> mat K.
  (* in the model only: an empty map *)
  Definition jzero : jac := fun _ _ _ => k0.
  (* JacobianContainerSparse.hpp, add: Jacobians of the same variable are summed (C03) *)
  Definition jadd (a b : jac) : jac := fun d i j => kadd (a d i j) (b d i j).
  (* JacobianContainer.hpp L78, apply: the chain rule (C01) *)
  Definition jchain (A : nat * mat K) (a : jac) : jac := fun d => mmul (fst A) (snd A) (a d).
  (* in the model only: add(dv, M), which does nothing when the variable is not active *)
  Definition jleaf (d : nat) (M : mat K) (active : bool) : jac := fun d' => if (d =? d') && active then M else fun _ _ => k0.

  (* what is cached: a value or a Jacobian container; a cell is that member with its flag and mutex: CE L100-104, CI L31-32 *)
  Inductive kind := KV | KJ.
  (* same code: CE L100-104, CI L31-32 *)
  Definition cell : Type := kind * nat.
  (* same code: CE L100-104, CI L31-32 *)
  Definition datum : Type := (vec K + jac)%type.
  (* in the model only: helper *)
  Definition kind_eqb (a b : kind) : bool := match a, b with KV, KV | KJ, KJ => true | _, _ => false end.
  (* in the model only: helper *)
  Definition cell_eqb (a b : cell) : bool := kind_eqb (fst a) (fst b) && (snd a =? snd b).

  (** ** What a thread does, one shared access at a time *)
  (* in the model only: the shared accesses of CE L52-97 one by one *)
  Inductive prog : Type :=
  | PDone (r : option datum)                  (* finished, with its result or an exception *)
  | PFlag (c : cell) (k : bool -> prog)       (* read _isCacheValid *)
  | PLock (c : cell) (k : prog) | PUnlock (c : cell) (k : prog)
  | PBegin (c : cell) (k : prog) | PEnd (c : cell) (d : datum) (k : prog) (* the datum is being written in between *)
  | PSet (c : cell) (k : prog)                (* _isCacheValid = true *)
  | PRead (c : cell) (k : datum -> prog)
  | PBad.                                     (* read a datum while it was being written, or before it was ever written *)

  (* evaluateImplementation of the nodes, CE L52-64 for the cache node; k continues with the value, h after an exception *)
  Fixpoint evalP (s : nat -> vec K) (e : cx) (k : vec K -> prog) (h : prog) : prog :=
    match e with
    | CVar d => k (s d)
    | CConst v => k v
    | CUn o a => evalP s a (fun x => match val1 N o x with Some y => k y | None => h end) h
    | CBin o a b => evalP s a (fun x => evalP s b (fun y => match val2 N o x y with Some z => k z | None => h end) h) h
    | CIf c a b => if test N c s then evalP s a k h else evalP s b k h
    | CCache i e =>
      let c := (KV, i) in
      let ret := PRead c (fun d => match d with inl v => k v | inr _ => PBad end) in
      PFlag c (fun valid => if valid then ret else
        PLock c (PFlag c (fun valid => if valid then PUnlock c ret else
          evalP s e (fun v => PBegin c (PEnd c (inl v) (PSet c (PUnlock c ret)))) (PUnlock c h))))
    end.
  (* evaluateJacobiansImplementation, CE L66-70 and L84-97 for the cache node: setZero, evaluateJacobians into _jc, then addTo *)
  Fixpoint jacP (s : nat -> vec K) (act : nat -> bool) (e : cx) (k : jac -> prog) (h : prog) : prog :=
    match e with
    | CVar d => k (jleaf d (leaf N d (s d)) (act d))
    | CConst _ => k jzero
    | CUn o a => evalP s a (fun x => jacP s act a (fun j => k (jchain (fac1 N o x) j)) h) h
    | CBin o a b => evalP s a (fun x => evalP s b (fun y => jacP s act a (fun ja => jacP s act b (fun jb => k (jadd (jchain (fst (fac2 N o x y)) ja) (jchain (snd (fac2 N o x y)) jb))) h) h) h) h
    | CIf c a b => if test N c s then jacP s act a k h else jacP s act b k h
    | CCache i e =>
      let c := (KJ, i) in
      let ret := PRead c (fun d => match d with inr j => k j | inl _ => PBad end) in
      PFlag c (fun valid => if valid then ret else
        PLock c (PFlag c (fun valid => if valid then PUnlock c ret else
          PBegin c (jacP s act e (fun j => PEnd c (inr j) (PSet c (PUnlock c ret))) (PUnlock c h)))))
    end.

  (* what a thread is asked for *)
  (* in the model only: a call of evaluate or of evaluateJacobians *)
  Inductive job := JobV (e : cx) | JobJ (e : cx).
  (* in the model only: the accesses of such a call *)
  Definition compile (s : nat -> vec K) (act : nat -> bool) (q : job) : prog :=
    match q with
    | JobV e => evalP s e (fun v => PDone (Some (inl v))) (PDone None)
    | JobJ e => jacP s act e (fun j => PDone (Some (inr j))) (PDone None)
    end.

  (** ** The world *)
  Record world := {
    vals : nat -> vec K; prev : nat -> vec K;        (* values of the design variables and the ones kept for revertUpdate *)
    active : nat -> bool;                            (* _isActive: DH L158 *)
    defs : list cx;                                  (* the wrapped expression of cache node i *)
    reg : nat -> list nat;                           (* _cacheNodes of each design variable: DH L164 *)
    flag : cell -> bool; cont : cell -> option datum; (* _isCacheValidV/J; _v, _jc, None while written *)
    mutex : cell -> option nat;                      (* which thread holds _mutexV/J *)
    threads : list (job * prog) }.
  (* in the model only: helper *)
  Definition with_threads (w : world) t := {| vals := vals w; prev := prev w; active := active w; defs := defs w; reg := reg w; flag := flag w; cont := cont w; mutex := mutex w; threads := t |}.
  (* in the model only: helper *)
  Definition with_flag (w : world) f := {| vals := vals w; prev := prev w; active := active w; defs := defs w; reg := reg w; flag := f; cont := cont w; mutex := mutex w; threads := threads w |}.
  (* in the model only: helper *)
  Definition with_cont (w : world) c := {| vals := vals w; prev := prev w; active := active w; defs := defs w; reg := reg w; flag := flag w; cont := c; mutex := mutex w; threads := threads w |}.
  (* in the model only: helper *)
  Definition with_mutex (w : world) m := {| vals := vals w; prev := prev w; active := active w; defs := defs w; reg := reg w; flag := flag w; cont := cont w; mutex := m; threads := threads w |}.
  (* in the model only: helper *)
  Definition with_vals (w : world) v p := {| vals := v; prev := p; active := active w; defs := defs w; reg := reg w; flag := flag w; cont := cont w; mutex := mutex w; threads := threads w |}.
  (* in the model only: helper *)
  Definition with_active (w : world) a := {| vals := vals w; prev := prev w; active := a; defs := defs w; reg := reg w; flag := flag w; cont := cont w; mutex := mutex w; threads := threads w |}.
  (* in the model only: helper *)
  Definition set1 {A} (f : nat -> A) (d : nat) (a : A) : nat -> A := fun d' => if d' =? d then a else f d'.
  (* in the model only: helper *)
  Definition setc {A} (f : cell -> A) (c : cell) (a : A) : cell -> A := fun c' => if cell_eqb c' c then a else f c'.

  (* a design variable that no cache knows: all flags as constructed, CI L22 *)
  Definition init (s p : nat -> vec K) (a : nat -> bool) : world :=
    {| vals := s; prev := p; active := a; defs := []; reg := fun _ => []; flag := fun _ => false; cont := fun _ => None; mutex := fun _ => None; threads := [] |}.

  (* invalidateCache: DH L138-141, DC L78-85, CI L26-28 *)
  Definition invalidate (w : world) (d : nat) : world := with_flag w (fun c => if existsb (Nat.eqb (snd c)) (reg w d) then false else flag w c).
  (* toCacheExpression: CE L186-196, with registerCacheExpressionNode DC L74-76 *)
  Definition to_cache (w : world) (e : cx) : world :=
    {| vals := vals w; prev := prev w; active := active w; defs := defs w ++ [e];
       reg := fun d => if existsb (Nat.eqb d) (dvs e (vals w)) then reg w d ++ [length (defs w)] else reg w d;
       flag := flag w; cont := cont w; mutex := mutex w; threads := threads w |}.

  (** one step of thread i, which is at p *)
  (* in the model only: the effect of one access on the world, see prog *)
  Definition tstep (w : world) (i : nat) (p : prog) : option (world * prog) :=
    match p with
    | PDone _ | PBad => None
    | PFlag c k => Some (w, k (flag w c))
    | PLock c k => match mutex w c with None => Some (with_mutex w (setc (mutex w) c (Some i)), k) | Some _ => None end
    | PUnlock c k => Some (with_mutex w (setc (mutex w) c None), k)
    | PBegin c k => Some (with_cont w (setc (cont w) c None), k)
    | PEnd c d k => Some (with_cont w (setc (cont w) c (Some d)), k)
    | PSet c k => Some (with_flag w (setc (flag w) c true), k)
    | PRead c k => Some (w, match cont w c with Some d => k d | None => PBad end)
    end.
  (* in the model only: lists *)
  Fixpoint replace {A} (l : list A) (i : nat) (a : A) : list A := match l, i with [], _ => [] | _ :: l, O => a :: l | x :: l, S i => x :: replace l i a end.

  (* what may happen *)
  Inductive label :=
  | LUpdate (d : nat) (dp : vec K) | LRevert (d : nat) | LSetParameters (d : nat) (v : vec K)   (* DC L18-25, L29-33, L45-48 *)
  | LSet (d : nat) (v : vec K)              (* the set() of EuclideanPoint.hpp L32, RotationQuaternion.hpp L41 and others: no invalidateCache *)
  | LActive (d : nat) (b : bool)            (* setActive: DH L65 *)
  | LCache (e : cx)                         (* toCacheExpression *)
  | LSpawn (l : list job)                   (* start evaluating threads *)
  | LThread (i : nat).                      (* thread i takes a step *)
  (* same code: DH L65 *)
  Definition quiet (w : world) : bool := forallb (fun t => match snd t with PDone _ => true | _ => false end) (threads w).
  (* same code: DH L65 *)
  Definition step (w : world) (l : label) : option world :=
    match l with
    | LThread i => match nth_error (threads w) i with Some (q, p) => match tstep w i p with Some (w', p') => Some (with_threads w' (replace (threads w) i (q, p'))) | None => None end | None => None end
    | _ => if quiet w then
        let w := with_threads w [] in
        Some match l with
        | LUpdate d dp => let w := invalidate w d in with_vals w (set1 (vals w) d (plus N d (vals w d) dp)) (set1 (prev w) d (vals w d))
        | LRevert d => let w := invalidate w d in with_vals w (set1 (vals w) d (prev w d)) (prev w)
        | LSetParameters d v => let w := invalidate w d in with_vals w (set1 (vals w) d v) (prev w)
        | LSet d v => with_vals w (set1 (vals w) d v) (prev w)
        | LActive d b => with_active w (set1 (active w) d b)
        | LCache e => to_cache w e
        | LSpawn l => with_threads w (map (fun q => (q, compile (vals w) (active w) q)) l)
        | LThread _ => w
        end else None
    end.
End C.
