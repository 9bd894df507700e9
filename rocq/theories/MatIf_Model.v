(** * Model of the three implementations of the Matrix interface (Matrix.hpp L13-56)

    DM = aslam_backend/src/DenseMatrix.cpp, SW = aslam_backend/src/SparseBlockMatrixWrapper.cpp, CC = aslam_backend/include/aslam/backend/implementation/CompressedColumnMatrix.hpp.
    Vectors are objects in a store, because the source and the destination of a product may be the same object. *)
From Coq Require Import Arith Lia List ZArith NArith Bool.
From Verif Require Import Lib_Ring Lib_Res CCM_Model SBM_Model.
Import ListNotations.
Local Open Scope nat_scope.

Section MatIf.
  Context {K : Type} {R : CRing K}.
  (* the vectors of the caller, by identity: size and elements *)
  (* in the model only: helper *)
  Definition store := nat -> nat * vec K.
  (* assignment to a vector (Matrix.hpp L46, L49 take vectors by reference) *)
  Definition assign (s : store) (y : nat) (v : nat * vec K) : store := fun i => if i =? y then v else s i.

  (** ** DenseMatrix: an Eigen matrix *)
  (* its member _M, DenseMatrix.hpp L47, with its size *)
  Record dmat := mkDmat { dm_rows : nat; dm_cols : nat; dm_M : mat K }.
  (* fromDense DM L53-56 *)
  Definition dm_fromDense (M : mat K) (rows cols : nat) : dmat := mkDmat rows cols M.
  (* fromDenseTolerance DM L62-71; [small x] is fabs(x) <= tolerance *)
  Definition dm_fromTol (small : K -> bool) (M : mat K) (rows cols : nat) : dmat :=
    mkDmat rows cols (fold_left (fun A rc => if small (A (fst rc) (snd rc)) then (fun i j => if (i =? fst rc) && (j =? snd rc) then k0 else A i j) else A)
                                (flat_map (fun r => map (fun c => (r, c)) (seq 0 cols)) (seq 0 rows)) M).
  (* operator() DM L17-20; reading outside is undefined *)
  Definition dm_element (m : dmat) (r c : nat) : res K := if (r <? dm_rows m) && (c <? dm_cols m) then Ok (dm_M m r c) else UB.
  (* rightMultiply DM L75-78, leftMultiply DM L82-85: Eigen evaluates a product before it assigns it; a wrong size is an assertion of Eigen, undefined without it *)
  Definition dm_right (m : dmat) (x y : nat) (s : store) : res store :=
    if fst (s x) =? dm_cols m then Ok (assign s y (dm_rows m, mvmul (dm_cols m) (dm_M m) (snd (s x)))) else UB.
  (* leftMultiply DM L82-85 *)
  Definition dm_left (m : dmat) (x y : nat) (s : store) : res store :=
    if fst (s x) =? dm_rows m then Ok (assign s y (dm_cols m, mvmul (dm_rows m) (mtr (dm_M m)) (snd (s x)))) else UB.

  (** ** SparseBlockMatrixWrapper *)
  (* the loops SW L60-66: block column, block row, column and row inside the block *)
  Definition sw_positions (m : sbm K) : list (nat * nat * nat * nat) :=
    flat_map (fun bc => flat_map (fun br => flat_map (fun dc => map (fun dr => (br, bc, dr, dc)) (seq 0 (bsize (s_rbi m) br))) (seq 0 (bsize (s_cbi m) bc))) (seq 0 (length (s_rbi m)))) (seq 0 (length (s_cbi m))).
  (* one pass SW L67-73; [keep x] is fabs(x) > tolerance; that the pointer B is kept for the next pass is not modelled *)
  Definition sw_pass (keep : K -> bool) (M : mat K) (m : sbm K) (p : nat * nat * nat * nat) : res (sbm K) :=
    let '(br, bc, dr, dc) := p in
    let v := M (base (s_rbi m) br + dr) (base (s_cbi m) bc + dc) in
    if keep v then do B <- blockAlloc m br bc; setBlock m br bc (fun i j => if (i =? dr) && (j =? dc) then v else B i j) else Ok m.
  (* fromDenseTolerance SW L54-78; fromDense SW L45-48 is the tolerance 0 *)
  Definition sw_fromTol (keep : K -> bool) (M : mat K) (rows cols : nat) (m : sbm K) : res (sbm K) :=
    if negb ((rows =? total (s_rbi m)) && (cols =? total (s_cbi m))) then Throw
    else fold_left (fun s p => do d <- s; sw_pass keep M d p) (sw_positions m) (Ok (SBM_Model.clear true m)).
  (* one axpy, sparse_block_matrix.hpp L460 and L424-432: reads the source as it is then *)
  Definition sw_axpy (m : sbm K) (x y : nat) (s : store) (e : nat * nat * mat K) : store :=
    let r := fst (fst e) in let i := snd (fst e) in
    assign s y (fst (s y), seg_add (snd (s y)) (base (s_rbi m) r) (bsize (s_rbi m) r) (mvmul (bsize (s_cbi m) i) (snd e) (fun t => snd (s x) (base (s_cbi m) i + t)))).
  (* one atxpy, sparse_block_matrix.hpp L479 and L434-442 *)
  Definition sw_atxpy (m : sbm K) (x y : nat) (s : store) (e : nat * nat * mat K) : store :=
    let r := fst (fst e) in let i := snd (fst e) in
    assign s y (fst (s y), seg_add (snd (s y)) (base (s_cbi m) i) (bsize (s_cbi m) i) (mvmul (bsize (s_rbi m) r) (mtr (snd e)) (fun t => snd (s x) (base (s_rbi m) r + t)))).
  (* rightMultiply SW L82-86 with sparse_block_matrix.hpp L446-463: resize, then the size of the source is checked (assert), then setZero *)
  Definition sw_right (m : sbm K) (x y : nat) (s : store) : res store :=
    let s1 := assign s y (total (s_rbi m), snd (s y)) in
    if fst (s1 x) =? total (s_cbi m) then Ok (fold_left (sw_axpy m x y) (entries m) (assign s1 y (total (s_rbi m), fun _ => k0))) else UB.
  (* leftMultiply SW L90-94 with sparse_block_matrix.hpp L466-482 *)
  Definition sw_left (m : sbm K) (x y : nat) (s : store) : res store :=
    let s1 := assign s y (total (s_cbi m), snd (s y)) in
    if fst (s1 x) =? total (s_rbi m) then Ok (fold_left (sw_atxpy m x y) (entries m) (assign s1 y (total (s_cbi m), fun _ => k0))) else UB.

  (** ** CompressedColumnMatrix: CCM_Model, with the vectors in the store *)
  (* rightMultiply CC L378-389 *)
  Definition cc_right (m : ccm K) (x y : nat) (s : store) : res store :=
    if negb (fst (s x) =? used_cols m) then Throw
    else columns k0 m (fun s c (e : nat * K) => if fst e <? c_rows m then Ok (assign s y (fst (s y), fun i => if i =? fst e then kadd (snd (s y) i) (kmul (snd e) (snd (s x) c)) else snd (s y) i)) else UB)
                 0 (used_cols m) (assign s y (c_rows m, fun _ => k0)).
  (* leftMultiply CC L395-406 *)
  Definition cc_left (m : ccm K) (x y : nat) (s : store) : res store :=
    if negb (fst (s x) =? c_rows m) then Throw
    else columns k0 m (fun s c (e : nat * K) => if fst e <? fst (s x) then Ok (assign s y (fst (s y), fun i => if i =? c then kadd (snd (s y) i) (kmul (snd e) (snd (s x) (fst e))) else snd (s y) i)) else UB)
                 0 (used_cols m) (assign s y (used_cols m, fun _ => k0)).
End MatIf.
Arguments store K : clear implicits. Arguments dmat K : clear implicits.
