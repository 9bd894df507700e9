(** * What the Python module offers: block matrices, callbacks, properties

    aslam_backend_python/src (file names below refer to it). Python integers that fit an int are [Z]; an exception that reaches Python is [Throw].
    A block of a SparseBlockMatrix<MatrixXd> has its own size, which need not be the one of the layout: [p_size] holds it for the stored blocks.
    Simplified: release build (no Eigen or _DBG assertion); integers do not overflow. Not modelled: conversion of NumPy arrays (numpy_eigen),
    reference counts, a callback that raises an exception or changes the registry while it runs. *)
From Coq Require Import Arith List ZArith Bool.
From Verif Require Import Lib_Ring Lib_Res SBM_Model.
From Verif Require Optimizer2_Model Callback_Model.
Import ListNotations.

Section Matrix.
  Context {K : Type} {R : CRing K}.

  (* SparseBlockMatrix.cpp L66: SparseBlockMatrix<MatrixXd>; the sizes of the stored blocks *)
  Record pmat := mkPmat { p_m : sbm K; p_size : nat -> nat -> nat * nat }.
  (* SparseBlockMatrix.cpp L69: the constructor with layouts and the storage flag *)
  Definition py_new (rbi cbi : list nat) (hasStorage : bool) : pmat :=
    mkPmat (mkSbm rbi cbi (repeat [] (length cbi)) hasStorage) (fun r c => (bsize rbi r, bsize cbi c)).
  (* in the model only: a MatrixXd with its size *)
  Definition dmat := (nat * nat * mat K)%type.

  (* SparseBlockMatrix.cpp L15-18, L37-40: the tests of both indices *)
  Definition py_in (m : pmat) (r c : Z) : bool :=
    negb ((r <? 0)%Z || (Z.of_nat (length (s_rbi (p_m m))) <=? r)%Z) && negb ((c <? 0)%Z || (Z.of_nat (length (s_cbi (p_m m))) <=? c)%Z).
  (* blockSBM, SparseBlockMatrix.cpp L14-32 *)
  Definition py_getBlock (m : pmat) (r c : Z) : res dmat :=
    if py_in m r c then
      let r := Z.to_nat r in let c := Z.to_nat c in
      match get (p_m m) r c with
      | Some B => Ok (fst (p_size m r c), snd (p_size m r c), B)
      | None => Ok (bsize (s_rbi (p_m m)) r, bsize (s_cbi (p_m m)) c, zeroM)
      end
    else Throw.
  (* setBlockSBM, SparseBlockMatrix.cpp L36-48; the assignment to a MatrixXd takes over the size. The matrix after the call comes with the outcome. *)
  Definition py_setBlock (m : pmat) (r c : Z) (B : dmat) : res unit * pmat :=
    if py_in m r c then
      let r := Z.to_nat r in let c := Z.to_nat c in
      match get (p_m m) r c, s_storage (p_m m) with
      | None, false => (Throw, m)
      | _, _ => (Ok tt, mkPmat (set_cols (p_m m) (upd (s_cols (p_m m)) c (put r (snd B) (nth c (s_cols (p_m m)) []))))
                               (fun r' c' => if (r' =? r) && (c' =? c) then fst B else p_size m r' c'))
      end
    else (Throw, m).
  (* clearSBM L11 (clear() without argument) and clear L75; setZero keeps the size of a block *)
  Definition py_clear (m : pmat) (dealloc : bool) : pmat := mkPmat (clear dealloc (p_m m)) (p_size m).
  (* isBlockSet L76: no test of the indices; the column is looked up in a vector, the row in a map *)
  Definition py_isBlockSet (m : pmat) (r c : Z) : res bool :=
    if (c <? 0)%Z || (Z.of_nat (length (s_cols (p_m m))) <=? c)%Z then UB
    else if (r <? 0)%Z then Ok false
    else Ok (match get (p_m m) (Z.to_nat r) (Z.to_nat c) with Some _ => true | None => false end).
  (* in the model only: has every stored block the size of the layout? *)
  Definition sizes_fit (m : pmat) : bool :=
    forallb (fun e => let r := fst (fst e) in let c := snd (fst e) in
      (fst (p_size m r c) =? bsize (s_rbi (p_m m)) r) && (snd (p_size m r c) =? bsize (s_cbi (p_m m)) c)) (entries (p_m m)).
  (* toDense L86 with sparse_block_matrix.hpp L194: the assignment of a block of another size to a part of H is undefined *)
  Definition py_toDense (m : pmat) : res dmat :=
    if sizes_fit m then Ok (total (s_rbi (p_m m)), total (s_cbi (p_m m)), toDense (p_m m)) else UB.
  (* toDenseSymmetric L51-55: a selfadjointView of a matrix that is not square is undefined *)
  Definition py_toDenseSymmetric (m : pmat) : res dmat :=
    do d <- py_toDense m;
    let '(n, k, D) := d in
    if n =? k then Ok (n, k, fun p q => if p <=? q then D p q else D q p) else UB.
  (* at L58-61 with operator() (sparse_block_matrix.hpp L211-236); reading outside of the block is undefined *)
  Definition py_at (m : pmat) (r c : Z) : res K :=
    if (r <? 0)%Z || (c <? 0)%Z then Throw
    else
      let r := Z.to_nat r in let c := Z.to_nat c in
      let rbi := s_rbi (p_m m) in let cbi := s_cbi (p_m m) in
      let brow := upper_bound (length rbi) (fun i => nth i rbi 0) 0 (length rbi) r in
      let bcol := upper_bound (length cbi) (fun i => nth i cbi 0) 0 (length cbi) c in
      match get (p_m m) brow bcol with
      | Some _ => if (r <? total rbi) && (c <? total cbi) && negb ((r - base rbi brow <? fst (p_size m brow bcol)) && (c - base cbi bcol <? snd (p_size m brow bcol)))
                  then UB else element (p_m m) r c
      | None => element (p_m m) r c
      end.
End Matrix.
Arguments pmat K : clear implicits. Arguments dmat K : clear implicits.

(** ** Callbacks *)
Import Callback_Model.
(* OptimizerCallback.cpp L19-24: the type of an event object; None: it carries no __typeId *)
Definition event2typeid (o : option nat) : res nat := match o with Some e => Ok e | None => Throw end.
(* OptimizerCallback.cpp L31: the event argument has no __getitem__, or it has one (a list or tuple of events) *)
Inductive event_arg := One (o : option nat) | Many (l : list (option nat)).
(* OptimizerCallback.cpp L32-36: the elements are registered one by one *)
Fixpoint add_each (l : list (option nat)) (c : nat) (r : registry) : res unit * registry :=
  match l with
  | [] => (Ok tt, r)
  | o :: l' => match event2typeid o with Ok e => add_each l' c (add [e] c r) | Throw => (Throw, r) | UB => (UB, r) end
  end.
(* addCallbackWrapper, OptimizerCallback.cpp L26-42; a callable is a number, the registry holds the callables that the lambdas call *)
Definition py_add (callable : bool) (a : event_arg) (c : nat) (r : registry) : res unit * registry :=
  if negb callable then (Throw, r)
  else match a with
       | Many l => add_each l c r
       | One o => match event2typeid o with Ok e => (Ok tt, add [e] c r) | Throw => (Throw, r) | UB => (UB, r) end
       end.
(* OptimizerCallback.cpp L78-81: clear(event) *)
Definition py_clear_event (o : option nat) (r : registry) : res unit * registry :=
  match event2typeid o with Ok e => (Ok tt, clear e r) | Throw => (Throw, r) | UB => (UB, r) end.
(* OptimizerCallback.cpp L84-87: numCallbacks(event) *)
Definition py_num (o : option nat) (r : registry) : res nat := do e <- event2typeid o; Ok (numCallbacks r e).
(* OptimizerCallback.cpp L33-35, L38-40: the lambda calls the Python object and drops what it returns *)
Definition py_lambda {W} (f : nat -> W -> proceed * W) : functor_ W := FVoid (fun e w => snd (f e w)).

(** ** Properties and enumerations *)
(* Sampler.cpp L36, L49, Boost.Python: a C++ member function made callable from Python; a call with another number of arguments is an ArgumentError *)
Inductive member (S V : Type) := Getter (f : S -> V) | Setter (f : S -> V -> S).
Arguments Getter {S V}. Arguments Setter {S V}.
(* Sampler.cpp L36, L49, add_property of Boost.Python: the function that reads and the one that writes *)
Record property_ (S V : Type) := mkProperty { fget : member S V; fset : member S V }.
Arguments mkProperty {S V}. Arguments fget {S V}. Arguments fset {S V}.
(* Sampler.cpp L36, L49, Boost.Python: x.p calls fget with x *)
Definition py_read {S V} (p : property_ S V) (s : S) : res V := match fget p with Getter f => Ok (f s) | Setter _ => Throw end.
(* Sampler.cpp L36, L49, Boost.Python: x.p = v calls fset with x and v *)
Definition py_write {S V} (p : property_ S V) (s : S) (v : V) : res S := match fset p with Setter f => Ok (f s v) | Getter _ => Throw end.
(* aslam_backend/include/aslam/backend/SamplerBase.hpp L50, L122: the smoothing factor of the statistics and the burn-in flag; the rest of a sampler *)
Record sampler (V T : Type) := mkSampler { sa_factor : V; sa_burnIn : bool; sa_rest : T }.
Arguments mkSampler {V T}. Arguments sa_factor {V T}. Arguments sa_burnIn {V T}. Arguments sa_rest {V T}.
(* Sampler.cpp L36 with SamplerBase.hpp L40-41 *)
Definition prop_factor {V T} : property_ (sampler V T) V :=
  mkProperty (Getter sa_factor) (Setter (fun s v => mkSampler v (sa_burnIn s) (sa_rest s))).
(* Sampler.cpp L49 with SamplerBase.hpp L97-99: the setter is given first *)
Definition prop_isBurnIn {V T} : property_ (sampler V T) bool :=
  mkProperty (Setter (fun s b => mkSampler (sa_factor s) b (sa_rest s))) (Getter sa_burnIn).

(* Optimizer.cpp L197-203: the values that ConvergenceStatus has in Python, in this order *)
Definition py_status_values : list Optimizer2_Model.convergence :=
  [Optimizer2_Model.IN_PROGRESS; Optimizer2_Model.FAILURE; Optimizer2_Model.GRADIENT_NORM; Optimizer2_Model.DX; Optimizer2_Model.DOBJECTIVE].
