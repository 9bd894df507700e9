(** * Model of the column layout and of the state update

    aslam_backend/src/util/ProblemManager.cpp: initialize L39-96, applyDesignVariableScaling L135-138,
    applyStateUpdate L187-200; aslam_backend/src/Optimizer.cpp: initialize L65-106,
    applyStateUpdate (dense part) L617-629.
    Design variables are pointers (identifiers) into a heap of attribute records.  The counters are
    unbounded integers here, int/size_t in the code. *)
From Coq Require Import Arith Lia List ZArith Bool.
From Verif Require Import Lib_Ring Lib_Res DesignVar_Base.
Import ListNotations.

Section Layout.
Context {K : Type}.

(* in the model only: memory *)
Definition dvheap := nat -> dvar K.
(* in the model only: memory *)
Definition dset (h : dvheap) (i : nat) (d : dvar K) : dvheap := fun j => if j =? i then d else h j.
(** setBlockIndex / setColumnBase, DesignVariable.hpp L80, L92 *)
Definition setBlockIndex (b : Z) (d : dvar K) : dvar K :=
  mkDv (dv_id d) (dv_active d) b (dv_col d) (dv_dim d) (dv_scaling d).
(* same code: DesignVariable.hpp L80, L92 *)
Definition setColumnBase (c : Z) (d : dvar K) : dvar K :=
  mkDv (dv_id d) (dv_active d) (dv_block d) c (dv_dim d) (dv_scaling d).

(** ProblemManager.cpp L53-57: the active design variables in problem order *)
Definition active_dvs (h : dvheap) (dvs : list nat) : list nat := filter (fun i => dv_active (h i)) dvs.

(** L63-67: _numOptParameters is threaded through the loop *)
Fixpoint assign_columns (i : nat) (num : Z) (act : list nat) (h : dvheap) : dvheap * Z :=
  match act with
  | [] => (h, num)
  | v :: r =>
      let h1 := dset h v (setBlockIndex (Z.of_nat i) (h v)) in
      let h2 := dset h1 v (setColumnBase num (h1 v)) in
      assign_columns (S i) (num + Z.of_nat (dv_dim (h2 v)))%Z r h2
  end.

(** L79-86: row bases of the squared error terms (dimensions [dims]) *)
Fixpoint assign_rows (base : nat) (dims : list nat) : list nat :=
  match dims with [] => [] | d :: r => base :: assign_rows (base + d) r end.

(* ProblemManager.hpp L137-144 *)
Record pm := mkPm {
  pm_dvs : list nat;        (* _designVariables *)
  pm_numOpt : Z;            (* _numOptParameters *)
  pm_heap : dvheap;         (* attributes of the design variables *)
  pm_rows : list nat;       (* row bases of the squared error terms *)
  pm_numErr : nat }.        (* _numErrorTerms *)

(** initialize, L39-96: throws without active design variables or without error terms *)
Definition initialize (h : dvheap) (dvs : list nat) (numNS : nat) (dimsS : list nat) : res pm :=
  let act := active_dvs h dvs in
  if (length act =? 0) then Throw else
  let (h', n) := assign_columns 0 0 act h in
  if (numNS =? 0) && (length dimsS =? 0) then Throw else
  Ok (mkPm act n h' (assign_rows 0 dimsS) (numNS + length dimsS)).

(** Optimizer::initialize, Optimizer.cpp L71-95: marginalised variables (if the Schur complement is
    used) come last; [blocks] are the cumulative dimensions (std::partial_sum) *)
Fixpoint assign_blocks (i : nat) (act : list nat) (h : dvheap) : dvheap :=
  match act with
  | [] => h
  | v :: r => assign_blocks (S i) r (dset h v (setBlockIndex (Z.of_nat i) (h v)))
  end.
(* same code: Optimizer.cpp L71-95, std::partial_sum *)
Fixpoint partial_sum (acc : nat) (l : list nat) : list nat :=
  match l with [] => [] | x :: t => (acc + x) :: partial_sum (acc + x) t end.
(* same code: Optimizer.cpp L71-95, std::partial_sum *)
Definition initialize_v1 (h : dvheap) (marg : nat -> bool) (doSchur : bool) (dvs : list nat)
  : res (list nat * nat * dvheap * list nat) :=
  let dense := filter (fun i => negb (marg i && doSchur)) (active_dvs h dvs) in
  let sparse := filter (fun i => marg i && doSchur) (active_dvs h dvs) in
  if (length dense =? 0) then Throw else
  let h1 := assign_blocks 0 dense h in
  let h2 := assign_blocks (length dense) sparse h1 in
  Ok (dense ++ sparse, length dense, h2, partial_sum 0 (map (fun i => dv_dim (h i)) (dense ++ sparse))).
End Layout.
Arguments dvheap K : clear implicits. Arguments pm K : clear implicits.

(** ** State update *)
Section Update.
Context {K : Type} {R : CRing K}.

(** dx.segment(startIdx, dbd): out of range is undefined in a release build *)
(* in the model only: Eigen segment *)
Definition segment (dx : list K) (s n : nat) : res (list K) :=
  if s + n <=? length dx then Ok (firstn n (skipn s dx)) else UB.

(** applyStateUpdate, ProblemManager.cpp L187-200: the calls d->update(dxS) in order *)
Fixpoint applyStateUpdate (h : dvheap K) (dvs : list nat) (startIdx : nat) (dx : list K) : res (list (nat * list K)) :=
  match dvs with
  | [] => Ok []
  | v :: r =>
      let dbd := dv_dim (h v) in
      do s <- segment dx startIdx dbd;
      let dxS := map (fun x => kmul x (dv_scaling (h v))) s in
      do t <- applyStateUpdate h r (startIdx + dbd) dx;
      Ok ((v, dxS) :: t)
  end.

(** executing the update calls on the values of the design variables *)
(* in the model only: the virtual calls of update *)
Fixpoint exec_updates {S : Type} (upd : nat -> S -> list K -> S) (calls : list (nat * list K)) (vals : nat -> S) : nat -> S :=
  match calls with
  | [] => vals
  | (v, d) :: r => exec_updates upd r (fun j => if j =? v then upd v (vals v) d else vals j)
  end.

(** applyDesignVariableScaling, L135-138: scales the columns of each design variable *)
Definition scale_block (g : vec K) (base n : nat) (s : K) : vec K :=
  fun j => if (base <=? j) && (j <? base + n) then kmul (g j) s else g j.
(* same code: L135-138 *)
Fixpoint applyDesignVariableScaling (h : dvheap K) (dvs : list nat) (g : vec K) : vec K :=
  match dvs with
  | [] => g
  | v :: r => applyDesignVariableScaling h r (scale_block g (Z.to_nat (dv_col (h v))) (dv_dim (h v)) (dv_scaling (h v)))
  end.
End Update.
