(** * CompressedColumnMatrix and the Jacobian transpose builder

    aslam_backend/include/aslam/backend/implementation/CompressedColumnMatrix.hpp (line numbers without file refer to it) and
    CompressedColumnJacobianTransposeBuilder.hpp. Simplifications: indices do not overflow the index type; forming the address one past the end of a
    vector (as operator() does) is allowed; capacity reservations are left out; release build (the _DBG assertions are left out). *)
From Coq Require Import Arith Lia List ZArith Bool.
From Verif Require Import Lib_Ring Lib_Res.
Import ListNotations.

Section CCM.
  Context {K : Type}.
  Variable z : K. (* zero: new elements of a vector<double>, missing entries *)

  (* CompressedColumnMatrix.hpp (class): _rows, _cols, _values, _row_ind, _col_ptr, _hasDiagonalAppended, _acceptConstantErrorTerms *)
  Record ccm := mkCcm { c_rows : nat; c_cols : nat; c_vals : list K; c_ri : list nat; c_cp : list nat; c_diag : bool; c_acc : bool }.

  (* checkMatrixDbg L5-8 (active in all builds) *)
  Definition consistent (m : ccm) : bool :=
    (last (c_cp m) 0 =? length (c_vals m)) && (last (c_cp m) 0 =? length (c_ri m)) && (length (c_cp m) =? c_cols m + 1).
  (* same code: L5-8 *)
  Definition checked (m : ccm) : res ccm := if consistent m then Ok m else Throw.

  (* init L36-45 on an existing matrix: values and row indices stay *)
  Definition init (rows cols : nat) (m : ccm) : ccm := mkCcm rows cols (c_vals m) (c_ri m) (repeat 0 (cols + 1)) false (c_acc m).
  (* the constructors L23-33 *)
  Definition construct (rows cols : nat) : ccm := init rows cols (mkCcm 0 0 [] [] [] false false).
  (* clear L132-137 *)
  Definition clear (m : ccm) : ccm := mkCcm (c_rows m) (c_cols m) [] [] (repeat 0 (c_rows m + 1)) (c_diag m) (c_acc m).
  (* setAcceptConstantErrorTerms *)
  (* same code: L132-137 *)
  Definition setAccept (b : bool) (m : ccm) : ccm := mkCcm (c_rows m) (c_cols m) (c_vals m) (c_ri m) (c_cp m) (c_diag m) b.

  (* std::lower_bound (used in L177), the loop of libstdc++: f is the array, [first, first + len) the range *)
  Fixpoint lower_bound (fuel : nat) (f : nat -> nat) (first len r : nat) : nat :=
    match fuel with
    | O => first
    | S fuel' =>
      if len =? 0 then first
      else let half := len / 2 in
           if f (first + half) <? r then lower_bound fuel' f (first + half + 1) (len - half - 1) r
           else lower_bound fuel' f first half r
    end.

  (* operator() L168-186 *)
  Definition element (m : ccm) (r c : nat) : res K :=
    match nth_error (c_cp m) c, nth_error (c_cp m) (c + 1) with
    | Some a, Some b =>
      if (a <=? b) && (b <=? length (c_ri m)) then
        let p := lower_bound (b - a) (fun i => nth i (c_ri m) 0) a (b - a) r in
        if negb (p =? b) && (nth p (c_ri m) 0 =? r) then match nth_error (c_vals m) p with Some v => Ok v | None => UB end
        else Ok z
      else UB
    | _, _ => UB
    end.
  (* value L158-163 *)
  Definition value (m : ccm) (r c : nat) : res K := if (r <? c_rows m) && (c <? c_cols m) then element m r c else Throw.

  (* the entries of column c as (row, value), read like L122-124, L384-386 and L401-403 do *)
  Definition column (m : ccm) (c : nat) : res (list (nat * K)) :=
    match nth_error (c_cp m) c, nth_error (c_cp m) (c + 1) with
    | Some a, Some b =>
      if (b <=? length (c_ri m)) && (b <=? length (c_vals m)) || (b <=? a)
      then Ok (map (fun p => (nth p (c_ri m) 0, nth p (c_vals m) z)) (seq a (b - a))) else UB
    | _, _ => UB
    end.

  (* the loop over the columns c, c+1, ... (n of them), each processed by step *)
  (* in the model only: the common shape of the loops at L118-127 and of the products below *)
  Fixpoint columns {S : Type} (m : ccm) (step : S -> nat -> nat * K -> res S) (c n : nat) (s : S) : res S :=
    match n with
    | O => Ok s
    | Datatypes.S n' =>
      do col <- column m c;
      do s' <- fold_left (fun s e => do x <- s; step x c e) col (Ok s);
      columns m step (c + 1) n' s'
    end.

  (* toDenseInto L118-127; writing outside of outM is undefined *)
  Definition toDense (m : ccm) : res (nat -> nat -> K) :=
    match c_cp m with
    | [] => UB
    | _ =>
      columns m (fun M c (e : nat * K) => if (fst e <? c_rows m) && (c <? c_cols m)
                                 then Ok (fun i j => if (i =? fst e) && (j =? c) then snd e else M i j) else UB)
              0 (length (c_cp m) - 1) (fun _ _ => z)
    end.

  (* fromDenseTolerance L417-436; [keep x] is fabs(x) > fabs(tolerance); the diagonal flag is not touched *)
  Section Dense.
    Variable keep : K -> bool.
    (* same code: L417-436 *)
    Definition dense_column (M : nat -> nat -> K) (rows c : nat) : list (nat * K) :=
      map (fun r => (r, M r c)) (filter (fun r => keep (M r c)) (seq 0 rows)).
    (* same code: L417-436 *)
    Fixpoint dense_loop (M : nat -> nat -> K) (rows c n : nat) (vals : list K) (ri cp : list nat) : list K * list nat * list nat :=
      match n with
      | O => (vals, ri, cp)
      | S n' =>
        let col := dense_column M rows c in
        let vals' := vals ++ map snd col in
        dense_loop M rows (c + 1) n' vals' (ri ++ map fst col) (cp ++ [length vals'])
      end.
    (* same code: L417-436 *)
    Definition fromDense (M : nat -> nat -> K) (rows cols : nat) (m : ccm) : res ccm :=
      let '(vals, ri, cp) := dense_loop M rows 0 cols [] [] [0] in
      checked (mkCcm rows cols vals ri cp (c_diag m) (c_acc m)).
  End Dense.

  (* fromCholmodSparse L461-478: the arrays are copied *)
  Definition fromCholmod (rows cols : nat) (p i : list nat) (x : list K) (m : ccm) : res ccm :=
    checked (mkCcm rows cols x i p (c_diag m) (c_acc m)).

  (** ** the diagonal *)
  (* pushDiagonalBlock L316-342 *)
  Definition pushDiagonal (d : list K) (m : ccm) : res ccm :=
    if negb (consistent m) then Throw
    else if negb (length d =? c_rows m) then Throw
    else if c_diag m then Throw
    else checked (mkCcm (c_rows m) (c_cols m + c_rows m) (c_vals m ++ d) (c_ri m ++ seq 0 (c_rows m))
                        (c_cp m ++ map (fun i => last (c_cp m) 0 + i) (seq 1 (c_rows m))) true (c_acc m)).
  (* pushConstantDiagonalBlock L310-313 *)
  Definition pushConstant (x : K) (m : ccm) : res ccm := pushDiagonal (repeat x (c_rows m)) m.
  (* vector::resize(size() - n): an exception when the difference wraps around *)
  (* same code: L310-313 *)
  Definition shrink {T} (l : list T) (n : nat) : res (list T) := if n <=? length l then Ok (firstn (length l - n) l) else Throw.
  (* popDiagonalBlock L345-354 *)
  Definition popDiagonal (m : ccm) : res ccm :=
    if negb (c_diag m) then Throw
    else do v <- shrink (c_vals m) (c_rows m); do i <- shrink (c_ri m) (c_rows m); do p <- shrink (c_cp m) (c_rows m);
         checked (mkCcm (c_rows m) (c_cols m - c_rows m) v i p false (c_acc m)).
  (* updateDiagonalBlock L358-364; a vector of another size, or too few values, is an out-of-bounds access *)
  Definition updateDiagonal (d : list K) (m : ccm) : res ccm :=
    if negb (c_diag m) then Throw
    else if (length d =? c_rows m) && (c_rows m <=? length (c_vals m)) then
      Ok (mkCcm (c_rows m) (c_cols m) (firstn (length (c_vals m) - c_rows m) (c_vals m) ++ d) (c_ri m) (c_cp m) true (c_acc m))
    else UB.
  (* updateConstantDiagonalBlock L367-373 *)
  Definition updateConstant (x : K) (m : ccm) : res ccm := updateDiagonal (repeat x (c_rows m)) m.

  (** ** Jacobians *)
  (* the parts of a design variable used here *)
  (* DesignVariable.hpp L56-89 *)
  Record jdv := mkJdv { j_active : bool; j_block : Z; j_dim : nat; j_base : nat }.
  (* an entry of the map in JacobianContainerSparse: design variable and matrix with its dimensions *)
  (* same code: DesignVariable.hpp L56-89 *)
  Record jblock := mkJb { jb_dv : jdv; jb_rows : nat; jb_cols : nat; jb_mat : nat -> nat -> K }.
  (* JacobianColumnPointer, CompressedColumnMatrix.hpp (class) L26-31 *)
  Record jcp := mkJcp { p_start : nat; p_epc : nat; p_active : nat }.

  (* writes into an array, in order; outside of it: undefined *)
  (* in the model only: memory *)
  Fixpoint puts {T} (ws : list (nat * T)) (a : list T) : res (list T) :=
    match ws with
    | [] => Ok a
    | (i, v) :: ws' => if i <? length a then puts ws' (upd a i v) else UB
    end.

  (* std::sort with BlockIndexOrdering, L256 (sorting is not stable in C++; for distinct block indices there is only one result) *)
  Fixpoint insert (d : jdv) (l : list jdv) : list jdv :=
    match l with
    | [] => [d]
    | x :: l' => if (j_block d <? j_block x)%Z then d :: l else x :: insert d l'
    end.
  (* same code: std::sort, L256 *)
  Fixpoint sort_dvs (l : list jdv) : list jdv := match l with [] => [] | x :: l' => insert x (sort_dvs l') end.

  (* in the model only: the sum of minimalDimensions(), DesignVariable.hpp L56 *)
  Definition total_dim (l : list jdv) : nat := list_sum (map j_dim l).

  (* L267-281: the row indices written for the sorted active design variables *)
  Fixpoint row_writes (start epc jrows off : nat) (dvs : list jdv) : list (nat * nat) :=
    match dvs with
    | [] => []
    | d :: dvs' =>
      flat_map (fun c => map (fun r => (start + c * epc + off + r, j_base d + r)) (seq 0 (j_dim d))) (seq 0 jrows) ++
      row_writes start epc jrows (off + j_dim d) dvs'
    end.

  (* appendJacobiansSymbolic L236-286 *)
  Definition appendSymbolic (jrows : nat) (dvs : list jdv) (m : ccm) : res (ccm * jcp) :=
    if c_diag m then Throw
    else let act := filter j_active dvs in
      if negb (c_acc m) && (length act =? 0) then Throw
      else let sorted := sort_dvs act in
        let epc := total_dim act in
        let start := length (c_ri m) in
        match c_cp m with
        | [] => UB
        | _ =>
          do ri <- puts (row_writes start epc jrows 0 sorted) (c_ri m ++ repeat 0 (epc * jrows));
          do m' <- checked (mkCcm (c_rows m) (c_cols m + jrows) (c_vals m ++ repeat z (epc * jrows)) ri
                                  (c_cp m ++ map (fun i => last (c_cp m) 0 + i * epc) (seq 1 jrows)) false (c_acc m));
          Ok (m', mkJcp start epc (length act))
        end.

  (* L294-305: the values written *)
  Fixpoint value_writes (p : jcp) (off : nat) (jc : list jblock) : list (nat * K) :=
    match jc with
    | [] => []
    | b :: jc' =>
      flat_map (fun c => map (fun r => (p_start p + c * p_epc p + off + r, jb_mat b c r)) (seq 0 (jb_cols b))) (seq 0 (jb_rows b)) ++
      value_writes p (off + jb_cols b) jc'
    end.

  (* writeJacobians L289-306 *)
  Definition writeJacobians (jc : list jblock) (p : jcp) (m : ccm) : res ccm :=
    if negb (length jc =? p_active p) then Throw
    else do v <- puts (value_writes p 0 jc) (c_vals m);
         Ok (mkCcm (c_rows m) (c_cols m) v (c_ri m) (c_cp m) (c_diag m) (c_acc m)).

  (* appendJacobians L215-225 *)
  Definition appendJacobians (jrows : nat) (jc : list jblock) (m : ccm) : res ccm :=
    do mp <- appendSymbolic jrows (map jb_dv jc) m; writeJacobians jc (snd mp) (fst mp).

  (** ** the builder, CompressedColumnJacobianTransposeBuilder.hpp *)
  (* the parts of an error term used here: dimension, design variables, and the weighted Jacobians it evaluates to *)
  (* same code: CompressedColumnJacobianTransposeBuilder.hpp *)
  Record eterm := mkEt { e_dim : nat; e_dvs : list jdv; e_jac : list jblock }.

  (* L43-50: the error terms are appended one after the other *)
  Fixpoint append_terms (es : list eterm) (m : ccm) : res (ccm * list jcp) :=
    match es with
    | [] => Ok (m, [])
    | e :: es' => do mp <- appendSymbolic (e_dim e) (e_dvs e) m; do r <- append_terms es' (fst mp); Ok (fst r, snd mp :: snd r)
    end.
  (* initMatrixStructure L20-54; dvs.back() of an empty vector is undefined *)
  Definition initStructure (dvs : list jdv) (es : list eterm) (m : ccm) : res (ccm * list jcp) :=
    match dvs with
    | [] => UB
    | d0 :: _ => let d := last dvs d0 in append_terms es (init (j_base d + j_dim d) 0 (clear m))
    end.
  (* evaluateJacobians L100-108 for one error term *)
  Definition build_one (e : eterm) (p : jcp) (m : ccm) : res ccm := writeJacobians (e_jac e) p m.
  (* buildSystem L91-95 with one thread *)
  Fixpoint build (ps : list (eterm * jcp)) (m : ccm) : res ccm :=
    match ps with [] => Ok m | (e, p) :: ps' => do m' <- build_one e p m; build ps' m' end.
End CCM.
Arguments ccm K : clear implicits. Arguments jblock K : clear implicits. Arguments eterm K : clear implicits.

Section Products.
  Context {K : Type} {R : CRing K}.
  Notation ccm := (ccm K).
  (* the number of columns used: L380, L397 *)
  Definition used_cols (m : ccm) : nat := if c_diag m then c_cols m - c_rows m else c_cols m.
  (* rightMultiply L378-389; x has xlen elements *)
  Definition rightMultiply (m : ccm) (xlen : nat) (x : vec K) : res (vec K) :=
    if negb (xlen =? used_cols m) then Throw
    else columns k0 m (fun y c (e : nat * K) => if fst e <? c_rows m then Ok (fun i => if i =? fst e then (y i + snd e * x c)%K else y i) else UB)
                 0 (used_cols m) (fun _ => k0).
  (* leftMultiply L395-406; reading x outside of it is undefined *)
  Definition leftMultiply (m : ccm) (xlen : nat) (x : vec K) : res (vec K) :=
    if negb (xlen =? c_rows m) then Throw
    else columns k0 m (fun y c (e : nat * K) => if fst e <? xlen then Ok (fun i => if i =? c then (y i + snd e * x (fst e))%K else y i) else UB)
                 0 (used_cols m) (fun _ => k0).
End Products.
