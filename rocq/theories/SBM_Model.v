(** * SparseBlockMatrix

    sparse_block_matrix/include/sparse_block_matrix/implementation/sparse_block_matrix.hpp (line numbers without file refer to it; "h" is
    sparse_block_matrix/sparse_block_matrix.h). The scalars are any commutative ring. Simplifications: a block always has the size that the layout
    gives it (fixed-size blocks, and dynamic blocks as long as they are not resized through a pointer); integers do not overflow; release build
    (assert and _DBG checks are left out); owned blocks only, so views (slice with alloc = false) share nothing in the model. *)
From Coq Require Import Arith Lia List Bool.
From Verif Require Import Lib_Ring Lib_Res CCM_Model.
Import ListNotations.

Section SBM.
  Context {K : Type} {R : CRing K}.

  (* h L77: IntBlockMap, a std::map from block rows to blocks: sorted keys *)
  Definition bmap := list (nat * mat K).
  (* _rowBlockIndices, _colBlockIndices, _blockCols, _hasStorage *)
  (* same code: L77, std::map *)
  Record sbm := mkSbm { s_rbi : list nat; s_cbi : list nat; s_cols : list bmap; s_storage : bool }.

  (* h L136, L139: rowBaseOfBlock, colBaseOfBlock *)
  Definition base (l : list nat) (b : nat) : nat := match b with O => 0 | S k => nth k l 0 end.
  (* h L130, L133: rowsOfBlock, colsOfBlock *)
  Definition bsize (l : list nat) (b : nat) : nat := nth b l 0 - base l b.
  (* h L66, L68: rows, cols *)
  Definition total (l : list nat) : nat := last l 0.

  (* std::map::find *)
  Fixpoint find (r : nat) (c : bmap) : option (mat K) :=
    match c with [] => None | (k, B) :: c' => if r =? k then Some B else find r c' end.
  (* assignment to the block with key r, inserted if it is not there *)
  (* same code: std::map *)
  Fixpoint put (r : nat) (B : mat K) (c : bmap) : bmap :=
    match c with
    | [] => [(r, B)]
    | (k, B') :: c' => if r =? k then (k, B) :: c' else if r <? k then (r, B) :: c else (k, B') :: put r B c'
    end.

  (* the constructors L39-63 with hasStorage = true *)
  Definition fresh (rbi cbi : list nat) : sbm := mkSbm rbi cbi (repeat [] (length cbi)) true.
  (* block L147-155 (const); _blockCols[c] out of range is undefined and not used *)
  Definition get (m : sbm) (r c : nat) : option (mat K) := find r (nth c (s_cols m) []).
  (* same code: L147-155 *)
  Definition zeroM : mat K := fun _ _ => k0.
  (* in the model only: helper *)
  Definition set_cols (m : sbm) (cs : list bmap) : sbm := mkSbm (s_rbi m) (s_cbi m) cs (s_storage m).
  (* block L121-143 with alloc = true, for reading; the null pointer (no storage) is dereferenced by all callers: undefined *)
  Definition blockAlloc (m : sbm) (r c : nat) : res (mat K) :=
    if (c <? length (s_cols m)) && (r <? length (s_rbi m)) then
      match get m r c with Some B => Ok B | None => if s_storage m then Ok zeroM else UB end
    else UB.
  (* *block(r, c, true) = B *)
  (* same code: L121-143 *)
  Definition setBlock (m : sbm) (r c : nat) (B : mat K) : res sbm :=
    do _ <- blockAlloc m r c; Ok (set_cols m (upd (s_cols m) c (put r B (nth c (s_cols m) [])))).

  (* the loops over all columns i and all blocks of a column: (block row, block column, block), in this order *)
  (* in the model only: the common order of the loops over blocks *)
  Definition entries (m : sbm) : list (nat * nat * mat K) :=
    flat_map (fun i => map (fun e => (fst e, i, snd e)) (nth i (s_cols m) [])) (seq 0 (length (s_cols m))).
  (* in the model only: the common shape of the loops over blocks *)
  Definition loop {S : Type} (m : sbm) (f : S -> nat -> nat -> mat K -> res S) (s : S) : res S :=
    fold_left (fun s e => do x <- s; f x (fst (fst e)) (snd (fst e)) (snd e)) (entries m) (Ok s).

  (* clear L97-112 *)
  Definition clear (dealloc : bool) (m : sbm) : sbm :=
    set_cols m (map (fun c => if s_storage m && dealloc then [] else map (fun e => (fst e, zeroM)) c) (s_cols m)).
  (* cloneInto L164-177; clone L157-162; the copy constructor L66-70 *)
  Definition clone (m : sbm) : sbm := mkSbm (s_rbi m) (s_cbi m) (s_cols m) true.

  (* H.block(p0, q0, n, k) = B *)
  (* Eigen, block assignment *)
  Definition write_block (D : mat K) (p0 q0 n k : nat) (B : mat K) : mat K :=
    fun p q => if (p0 <=? p) && (p <? p0 + n) && (q0 <=? q) && (q <? q0 + k) then B (p - p0) (q - q0) else D p q.
  (* toDenseInto L179-201 *)
  Fixpoint dense_cols (m : sbm) (i c_idx : nat) (cs : list bmap) (D : mat K) : mat K :=
    match cs with
    | [] => D
    | c :: cs' =>
      let c_size := bsize (s_cbi m) i in
      dense_cols m (i + 1) (c_idx + c_size) cs'
        (fold_left (fun D e => write_block D (base (s_rbi m) (fst e)) c_idx (bsize (s_rbi m) (fst e)) c_size (snd e)) c D)
    end.
  (* same code: L179-201 *)
  Definition toDense (m : sbm) : mat K := dense_cols m 0 0 (s_cols m) zeroM.

  (* std::upper_bound: the loop of libstdc++ *)
  Fixpoint upper_bound (fuel : nat) (f : nat -> nat) (first len r : nat) : nat :=
    match fuel with
    | O => first
    | S fuel' =>
      if len =? 0 then first
      else let half := len / 2 in
           if r <? f (first + half) then upper_bound fuel' f first half r
           else upper_bound fuel' f (first + half + 1) (len - half - 1) r
    end.
  (* operator() L211-236 *)
  Definition element (m : sbm) (r c : nat) : res K :=
    if (r <? total (s_rbi m)) && (c <? total (s_cbi m)) then
      let brow := upper_bound (length (s_rbi m)) (fun i => nth i (s_rbi m) 0) 0 (length (s_rbi m)) r in
      let bcol := upper_bound (length (s_cbi m)) (fun i => nth i (s_cbi m) 0) 0 (length (s_cbi m)) c in
      if bcol <? length (s_cols m) then
        match get m brow bcol with
        | Some B => Ok (B (r - base (s_rbi m) brow) (c - base (s_cbi m) bcol))
        | None => Ok k0
        end
      else UB
    else Throw.

  (* std::vector operator== *)
  Definition same (a b : list nat) : bool := if list_eq_dec Nat.eq_dec a b then true else false.
  (* transpose L240-268; None: returned false; dest = None: null pointer *)
  Definition transpose (m : sbm) (dest : option sbm) : res (option sbm) :=
    match dest with
    | Some d => if s_storage d && same (s_rbi m) (s_cbi d) && same (s_cbi m) (s_rbi d)
                then do d' <- loop m (fun d r i B => setBlock d i r (mtr B)) d; Ok (Some d') else Ok None
    | None => do d' <- loop m (fun d r i B => setBlock d i r (mtr B)) (fresh (s_cbi m) (s_rbi m)); Ok (Some d')
    end.
  (* add L281-308 *)
  Definition add_to (d : sbm) (r i : nat) (B : mat K) : res sbm := do D <- blockAlloc d r i; setBlock d r i (madd D B).
  (* same code: L281-308 *)
  Definition add (m : sbm) (dest : option sbm) : res (option sbm) :=
    match dest with
    | Some d => if s_storage d && same (s_rbi m) (s_rbi d) && same (s_cbi m) (s_cbi d)
                then do d' <- loop m add_to d; Ok (Some d') else Ok None
    | None => do d' <- loop m add_to (fresh (s_rbi m) (s_cbi m)); Ok (Some d')
    end.
  (* multiply L312-345: this = m, M = f *)
  Definition multiply_loop (m f d : sbm) : res sbm :=
    loop f (fun d k i b =>
      if k <? length (s_cols m) then
        fold_left (fun s e => do x <- s; add_to x (fst e) i (mmul (bsize (s_cbi m) k) (snd e) b)) (nth k (s_cols m) []) (Ok d)
      else UB) d.
  (* same code: L312-345 *)
  Definition multiply (m f : sbm) (dest : option sbm) : res (option sbm) :=
    if same (s_cbi m) (s_rbi f) then
      let d := match dest with Some d => d | None => fresh (s_rbi m) (s_cbi f) end in
      if s_storage d then do d' <- multiply_loop m f d; Ok (Some d') else Ok None
    else Ok None.

  (* y.segment(off, n) += v *)
  (* Eigen, VectorBlock operator+= *)
  Definition seg_add (y : vec K) (off n : nat) (v : vec K) : vec K := fun p => if (off <=? p) && (p <? off + n) then kadd (y p) (v (p - off)) else y p.
  (* the loops of multiply L378-400 and L446-463: dest gets this * src added (axpy L357-365, L424-432) *)
  Definition axpy_loop (m : sbm) (src y : vec K) : vec K :=
    fold_left (fun y e => let r := fst (fst e) in let i := snd (fst e) in
      seg_add y (base (s_rbi m) r) (bsize (s_rbi m) r) (mvmul (bsize (s_cbi m) i) (snd e) (fun t => src (base (s_cbi m) i + t)))) (entries m) y.
  (* the loops of rightMultiply L466-482 and L485-509 (atxpy L367-375, L434-442) *)
  Definition atxpy_loop (m : sbm) (src y : vec K) : vec K :=
    fold_left (fun y e => let r := fst (fst e) in let i := snd (fst e) in
      seg_add y (base (s_cbi m) i) (bsize (s_cbi m) i) (mvmul (bsize (s_rbi m) r) (mtr (snd e)) (fun t => src (base (s_rbi m) r + t)))) (entries m) y.
  (* multiply(VectorXd) L446-463: dest is set to zero first *)
  Definition multiplyVec (m : sbm) (src : vec K) : vec K := axpy_loop m src (fun _ => k0).
  (* multiply(double) L378-400: only a null dest is set to zero *)
  Definition multiplyPtr (m : sbm) (dest : option (vec K)) (src : vec K) : vec K := axpy_loop m src (match dest with Some y => y | None => fun _ => k0 end).
  (* rightMultiply(VectorXd) L466-482 *)
  Definition rightMultiplyVec (m : sbm) (src : vec K) : vec K := atxpy_loop m src (fun _ => k0).
  (* rightMultiply(double) L485-509 *)
  Definition rightMultiplyPtr (m : sbm) (dest : option (vec K)) (src : vec K) : vec K := atxpy_loop m src (match dest with Some y => y | None => fun _ => k0 end).

  (* scale L512-519 *)
  Definition scale (a : K) (m : sbm) : sbm := set_cols m (map (map (fun e => (fst e, mscale a (snd e)))) (s_cols m)).

  (* slice L541-566 with alloc = true *)
  Fixpoint running (acc : nat) (l : list nat) : list nat := match l with [] => [] | x :: l' => (acc + x) :: running (acc + x) l' end.
  (* same code: L541-566 *)
  Definition slice_col (rmin rmax : nat) (c : bmap) : bmap :=
    map (fun e => (fst e - rmin, snd e)) (filter (fun e => (rmin <=? fst e) && (fst e <? rmax)) c).
  (* same code: L541-566 *)
  Definition slice (m : sbm) (rmin rmax cmin cmax : nat) : res sbm :=
    (* rowIdx[0], colIdx[0] need at least one block; the blocks must exist *)
    if (rmin <? rmax) && (cmin <? cmax) && (rmax <=? length (s_rbi m)) && (cmax <=? length (s_cbi m)) then
      Ok (mkSbm (running 0 (map (bsize (s_rbi m)) (seq rmin (rmax - rmin)))) (running 0 (map (bsize (s_cbi m)) (seq cmin (cmax - cmin))))
                (map (fun mc => slice_col rmin rmax (nth mc (s_cols m) [])) (seq cmin (cmax - cmin))) true)
    else UB.
  (* sliceInto L522-538 *)
  Definition sliceInto (m : sbm) (rmin rmax cmin cmax : nat) (out : sbm) : res sbm :=
    if cmax <=? length (s_cols m) then
      fold_left (fun s i => do x <- s;
        fold_left (fun s e => do x <- s; if (rmin <=? fst e) && (fst e <? rmax) then setBlock x (fst e - rmin) i (snd e) else Ok x)
                  (nth (cmin + i) (s_cols m) []) (Ok x)) (seq 0 (cmax - cmin)) (Ok (clear false out))
    else UB.

  (** ** symmetric permutation *)
  (* L617-632: the layout of the result; a pinv that is not a permutation leaves elements uninitialised, which the model takes as 0 *)
  Definition permuted_layout (m : sbm) (pinv : nat -> nat) : res (list nat) :=
    match s_rbi m with
    | [] => UB
    | _ => let n := length (s_rbi m) in
           do sizes <- puts (map (fun i => (pinv i, bsize (s_rbi m) i)) (seq 0 n)) (repeat 0 n);
           Ok (running 0 sizes)
    end.
  (* L650-671 *)
  Definition permute_loop (m : sbm) (pinv : nat -> nat) (upper : bool) (d : sbm) : res sbm :=
    loop m (fun d r i B => let pi := pinv i in let pj := pinv r in
      if negb upper || (pj <=? pi) then setBlock d pj pi B else setBlock d pi pj (mtr B)) d.
  (* symmPermutation L615-675 *)
  Definition symmPermutation (m : sbm) (dest : option sbm) (pinv : nat -> nat) (upper : bool) : res (option sbm) :=
    do l <- permuted_layout m pinv;
    match dest with
    | Some d => if same (s_rbi d) l && same (s_cbi d) l then do d' <- permute_loop m pinv upper (clear false d); Ok (Some d') else Ok None
    | None => do d' <- permute_loop m pinv upper (fresh l l); Ok (Some d')
    end.

  (** ** compressed columns *)
  (* the part of column c of block column i that belongs to one block, L690-696 and L713-722: (row, value); reading beyond the block is undefined *)
  Definition ccs_piece (m : sbm) (upper : bool) (i c : nat) (e : nat * mat K) : res (list (nat * K)) :=
    let rstart := base (s_rbi m) (fst e) in
    let brows := bsize (s_rbi m) (fst e) in
    let elems := if upper && (rstart =? base (s_cbi m) i) then c + 1 else brows in
    if elems <=? brows then Ok (map (fun r => (rstart + r, snd e r c)) (seq 0 elems)) else UB.
  (* same code: L690-696 and L713-722 *)
  Fixpoint pieces {A B} (f : A -> res (list B)) (l : list A) : res (list B) :=
    match l with [] => Ok [] | x :: l' => do a <- f x; do b <- pieces f l'; Ok (a ++ b) end.
  (* same code: L690-696 and L713-722 *)
  Definition ccs_column (m : sbm) (upper : bool) (ic : nat * nat) : res (list (nat * K)) :=
    pieces (ccs_piece m upper (fst ic) (snd ic)) (nth (fst ic) (s_cols m) []).
  (* the columns in order: block column and column in the block, L681-684, L706-710 *)
  Definition scalar_cols (m : sbm) : list (nat * nat) := flat_map (fun i => map (fun c => (i, c)) (seq 0 (bsize (s_cbi m) i))) (seq 0 (length (s_cols m))).
  (* Cp, Ci and Cx after the columns, L703-728: every column starts with the number of elements so far *)
  Fixpoint fill (f : nat * nat -> res (list (nat * K))) (l : list (nat * nat)) (cp ci : list nat) (cx : list K) : res (list nat * list nat * list K) :=
    match l with
    | [] => Ok (cp ++ [length cx], ci, cx)
    | x :: l' => do col <- f x; fill f l' (cp ++ [length cx]) (ci ++ map fst col) (cx ++ map snd col)
    end.
  (* the version that writes only the values, L679-700 and L807-857 *)
  Fixpoint fill_values (f : nat * nat -> res (list (nat * K))) (l : list (nat * nat)) (cx : list K) : res (list K) :=
    match l with [] => Ok cx | x :: l' => do col <- f x; fill_values f l' (cx ++ map snd col) end.
  (* fillCCS L703-729 *)
  Definition fillCCS (m : sbm) (upper : bool) : res (list nat * list nat * list K) := fill (ccs_column m upper) (scalar_cols m) [] [] [].
  (* fillCCS L679-700 *)
  Definition fillCCS_values (m : sbm) (upper : bool) : res (list K) := fill_values (ccs_column m upper) (scalar_cols m) [].
  (* L773-795 and L834-852: row c of the blocks from the diagonal block on, without the diagonal element *)
  Definition mirror_piece (m : sbm) (i c cBlock : nat) : res (list (nat * K)) :=
    match get m i cBlock with
    | Some b =>
      let skip := if i =? cBlock then c + 1 else 0 in
      if c <? bsize (s_rbi m) i then Ok (map (fun ci => (base (s_cbi m) cBlock + ci, b c ci)) (seq skip (bsize (s_cbi m) cBlock - skip))) else UB
    | None => Ok []
    end.
  (* same code: L773-795 and L834-852 *)
  Definition mirror_column (m : sbm) (ic : nat * nat) : res (list (nat * K)) :=
    do a <- ccs_column m true ic;
    do b <- pieces (mirror_piece m (fst ic) (snd ic)) (seq (fst ic) (length (s_cols m) - fst ic));
    Ok (a ++ b).
  (* fillUpperTriangleCCS L733-803 and L807-857 *)
  Definition fillUpper (m : sbm) : res (list nat * list nat * list K) := fill (mirror_column m) (scalar_cols m) [] [] [].
  (* same code: L733-803 and L807-857 *)
  Definition fillUpper_values (m : sbm) : res (list K) := fill_values (mirror_column m) (scalar_cols m) [].
  (* fillBlockStructure L860-884: Ap, Aii *)
  Definition fillBlockStructure (m : sbm) : list nat * list nat :=
    let cols := map (fun i => filter (fun r => r <=? i) (map fst (nth i (s_cols m) []))) (seq 0 (length (s_cols m))) in
    (0 :: running 0 (map (@length nat) cols), concat cols).
End SBM.
Arguments bmap K : clear implicits. Arguments sbm K : clear implicits.
