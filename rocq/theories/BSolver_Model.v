(** * The block linear solvers: LinearSolverCholmod, LinearSolverQr, LinearSolverDense and MatrixStructure

    sparse_block_matrix/include/sparse_block_matrix: linear_solver_cholmod.h ("C"), linear_solver_spqr.h ("Q"), linear_solver_dense.h ("D"), linear_solver.h,
    sparse_helper.h ("H"); sparse_block_matrix/src/matrix_structure.cpp ("M"); implementation/sparse_block_matrix.hpp ("S").
    An array is the list of its cells; a cell that was allocated but not written is None. Writing beyond an array, reading a cell that was not written and
    following a null pointer are undefined. The functions of CHOLMOD, SuiteSparseQR and Eigen are parameters. Simplifications: memory is not exhausted;
    integers do not overflow; release build (asserts are left out); the settings in cholmod_common are part of the parameters; symbolic analysis and
    factor are two values in the model and one object in CHOLMOD. linear_solver_csparse.h is not modelled: it includes headers that are not in the repository. *)
From Coq Require Import Arith Lia List Bool.
From Verif Require Import Lib_Ring Lib_Res SBM_Model Cov_Model.
Import ListNotations.

(* new T[k] *)
(* as at C L294-304, Q L178-188 *)
Definition newArray {A} (k : nat) : list (option A) := repeat None k.
(* write the elements l to the beginning of an array *)
(* in the model only: memory *)
Definition store {A} (l : list A) (a : list (option A)) : res (list (option A)) :=
  if length l <=? length a then Ok (map Some l ++ skipn (length l) a) else UB.
(* read the first k elements of an array *)
(* in the model only: helper *)
Fixpoint load {A} (k : nat) (a : list (option A)) : res (list A) :=
  match k with O => Ok [] | S k' => match a with Some x :: a' => do l <- load k' a'; Ok (x :: l) | _ => UB end end.
(* v.resize(n) if v is empty, v.resize(2 n) if v is then too small: C L230-233, L256-259; the elements are lost, unless the size stays *)
Definition grow {A} (n : nat) (v : list (option A)) : list (option A) :=
  let v := if length v =? 0 then newArray n else v in
  if length v <? n then newArray (2 * n) else v.

(** ** MatrixStructure *)
(* matrix_structure.h L43-53: n, Ap, Aii, maxN, maxNz; m is only written to files *)
Record mstruct := mkMs { ms_n : nat; ms_maxN : nat; ms_maxNz : nat; ms_Ap : list (option nat); ms_Aii : list (option nat) }.
(* M L35-38 *)
Definition ms_new : mstruct := mkMs 0 0 0 [] [].
(* alloc M L45-66 *)
Definition ms_alloc (n nz : nat) (s : mstruct) : mstruct :=
  if ms_n s =? 0 then mkMs n n nz (newArray (n + 1)) (newArray nz)
  else
    let maxNz := if ms_maxNz s <? nz then 2 * nz else ms_maxNz s in
    let Aii := if ms_maxNz s <? nz then newArray (2 * nz) else ms_Aii s in
    let maxN := if ms_maxN s <? n then 2 * n else ms_maxN s in
    let Ap := if ms_maxN s <? n then newArray (2 * n + 1) else ms_Ap s in
    mkMs n maxN maxNz Ap Aii.

Section Solver.
  Context {K : Type} {R : CRing K}.

  (* nonZeroBlocks S L568-574 *)
  Definition nonZeroBlocks (m : sbm K) : nat := list_sum (map (@length _) (s_cols m)).
  (* nonZeros S L577-592 *)
  Definition nonZeros (m : sbm K) : nat :=
    list_sum (map (fun i => list_sum (map (fun e : nat * mat K => bsize (s_cbi m) i * bsize (s_rbi m) (fst e)) (nth i (s_cols m) []))) (seq 0 (length (s_cols m)))).
  (* fillBlockStructure S L860-884, with its arrays *)
  Definition fillStructure (m : sbm K) (s : mstruct) : res mstruct :=
    let s := ms_alloc (length (s_cbi m)) (nonZeroBlocks m) s in
    do Ap <- store (fst (fillBlockStructure m)) (ms_Ap s);
    do Aii <- store (snd (fillBlockStructure m)) (ms_Aii s);
    Ok (mkMs (ms_n s) (ms_maxN s) (ms_maxNz s) Ap Aii).

  (** ** the compressed-column arrays *)
  (* H L87-117: CholmodExt: columnsAllocated, nzmax, nrow, ncol, p, i, x *)
  Record buf := mkBuf { b_alloc : nat; b_nzmax : nat; b_nrow : nat; b_ncol : nat; b_p : list (option nat); b_i : list (option nat); b_x : list (option K) }.
  (* H L89-106 *)
  Definition buf_new : buf := mkBuf 0 0 0 0 [] [] [].
  (* C L290-306, Q L174-190: the allocations; need = A.nonZeros(), Q: A.nonZeros() * 2 *)
  Definition buf_alloc (n need : nat) (onlyValues : bool) (s : buf) : buf :=
    let alloc := if b_alloc s <? n then (if b_alloc s =? 0 then n else 2 * n) else b_alloc s in
    let p := if b_alloc s <? n then newArray (alloc + 1) else b_p s in
    let more := negb onlyValues && (b_nzmax s <? need) in
    let nzmax := if more then (if b_nzmax s =? 0 then need else 2 * need) else b_nzmax s in
    mkBuf alloc nzmax (b_nrow s) (b_ncol s) p (if more then newArray nzmax else b_i s) (if more then newArray nzmax else b_x s).
  (* fillCholmodExt C L285-314, Q L169-202; full and values: the functions that write the compressed columns *)
  Definition fillExt (full : sbm K -> res (list nat * list nat * list K)) (values : sbm K -> res (list K)) (need : sbm K -> nat)
                     (m : sbm K) (onlyValues : bool) (s : buf) : res buf :=
    let s := buf_alloc (total (s_cbi m)) (need m) onlyValues s in
    if onlyValues then
      do v <- values m; do x <- store v (b_x s);
      Ok (mkBuf (b_alloc s) (b_nzmax s) (total (s_rbi m)) (total (s_cbi m)) (b_p s) (b_i s) x)
    else
      do f <- full m; do p <- store (fst (fst f)) (b_p s); do i <- store (snd (fst f)) (b_i s); do x <- store (snd f) (b_x s);
      Ok (mkBuf (b_alloc s) (b_nzmax s) (total (s_rbi m)) (total (s_cbi m)) p i x).
  (* what a function of CHOLMOD reads from a cholmod_sparse: p[0..ncol], then i and x up to p[ncol] *)
  (* same code: C L285-314, Q L169-202 *)
  Definition view (s : buf) : res (list nat * list nat * list K) :=
    do p <- load (b_ncol s + 1) (b_p s);
    let nz := nth (b_ncol s) p 0 in
    do i <- load nz (b_i s); do x <- load nz (b_x s); Ok (p, i, x).
  (* the pattern alone, as the symbolic analysis reads it *)
  (* same code: C L285-314, Q L169-202 *)
  Definition view_pattern (s : buf) : res (list nat * list nat) :=
    do p <- load (b_ncol s + 1) (b_p s); do i <- load (nth (b_ncol s) p 0) (b_i s); Ok (p, i).
  (* memcpy(x, sol, n * sizeof(double)) *)
  (* same code: C L285-314, Q L169-202 *)
  Definition copy (n : nat) (sol x : vec K) : vec K := fun k => if k <? n then sol k else x k.

  (** ** LinearSolverCholmod *)
  Variables Sym Fac : Type.
  (* cholmod_analyze with CHOLMOD_AMD; cholmod_analyze_p with CHOLMOD_GIVEN: n, p, i; None is the null pointer *)
  Variable analyze : nat -> list nat -> list nat -> option Sym.
  Variable analyze_p : list nat -> nat -> list nat -> list nat -> option Sym.
  (* cholmod_amd: the block ordering, None: failed *)
  Variable amd : nat -> list nat -> list nat -> option (list nat).
  (* cholmod_factorize: CHOLMOD_NOT_POSDEF, another error, or a factor *)
  (* linear_solver_cholmod.h L90-97 *)
  Inductive outcome := NotPosDef | Fails | Factor (f : Fac).
  Variable factorize : Sym -> nat -> list nat -> list nat -> list K -> outcome.
  (* cholmod_solve with CHOLMOD_A *)
  Variable csolve : Fac -> vec K -> vec K.
  (* cholmod_change_factor to LL, simplicial, packed, monotonic, and the arrays Perm, p, i, x of the result *)
  Variable change_factor : Fac -> option (list nat * list nat * list nat * list K).
  (* 1.0 / x and std::sort, see Cov_Model *)
  Variable recip : K -> K.
  Variable sort : list (nat * nat) -> list (nat * nat).

  (* C L210-215: _cholmodSparse, _cholmodFactor, _blockOrdering, _matrixStructure, _scalarPermutation, _blockPermutation *)
  Record cst := mkC { c_buf : buf; c_sym : option Sym; c_order : bool; c_ms : mstruct; c_sperm : list (option nat); c_bperm : list (option nat) }.
  (* C L34-47 *)
  Definition c_new : cst := mkC buf_new None false ms_new [] [].
  (* init C L59-68 *)
  Definition c_init (s : cst) : cst := mkC (c_buf s) None (c_order s) (c_ms s) (c_sperm s) (c_bperm s).
  (* setBlockOrdering C L206 *)
  Definition c_setOrder (b : bool) (s : cst) : cst := mkC (c_buf s) (c_sym s) b (c_ms s) (c_sperm s) (c_bperm s).
  (* C L260-267: the scalar columns of the blocks in the order of the block permutation; a block that does not exist is undefined *)
  Definition blow_up (m : sbm K) (P : list nat) : res (list nat) :=
    pieces (fun p => if p <? length (s_cbi m) then Ok (map (fun j => base (s_cbi m) p + j) (seq 0 (bsize (s_cbi m) p))) else UB) P.
  (* computeSymbolicDecomposition C L217-283 *)
  Definition c_symbolic (m : sbm K) (s : cst) : res cst :=
    if c_order s then
      do ms <- fillStructure m (c_ms s);
      let bperm := grow (ms_n ms) (c_bperm s) in
      do Ap <- load (ms_n ms + 1) (ms_Ap ms); do Aii <- load (nth (ms_n ms) Ap 0) (ms_Aii ms);
      match amd (ms_n ms) Ap Aii with
      | None => Ok (mkC (c_buf s) None true ms (c_sperm s) bperm)
      | Some P =>
        do bperm <- store P bperm;
        let sperm := grow (b_ncol (c_buf s)) (c_sperm s) in
        do P' <- load (ms_n ms) bperm;
        do q <- blow_up m P';
        do sperm <- store q sperm;
        do q' <- load (b_ncol (c_buf s)) sperm;
        do pi <- view_pattern (c_buf s);
        Ok (mkC (c_buf s) (analyze_p q' (b_ncol (c_buf s)) (fst pi) (snd pi)) true ms sperm bperm)
      end
    else
      do pi <- view_pattern (c_buf s);
      Ok (mkC (c_buf s) (analyze (b_ncol (c_buf s)) (fst pi) (snd pi)) false (c_ms s) (c_sperm s) (c_bperm s)).
  (* C L74-79, L117-122, L167-172: fill and, without a factor, analyse. In release mode the missing factor of a failed analysis is used: undefined *)
  Definition c_prepare (m : sbm K) (s : cst) : res (cst * Sym) :=
    do b <- fillExt (fun m => fillCCS m true) (fun m => fillCCS_values m true) nonZeros m (match c_sym s with Some _ => true | None => false end) (c_buf s);
    let s := mkC b (c_sym s) (c_order s) (c_ms s) (c_sperm s) (c_bperm s) in
    do s <- (match c_sym s with None => c_symbolic m s | Some _ => Ok s end);
    match c_sym s with Some y => Ok (s, y) | None => UB end.
  (* solve C L70-112: the state, the returned value, and x *)
  Definition c_solve (m : sbm K) (x b : vec K) (s : cst) : res (cst * (bool * vec K)) :=
    do sy <- c_prepare m s;
    do v <- view (c_buf (fst sy));
    match factorize (snd sy) (b_ncol (c_buf (fst sy))) (fst (fst v)) (snd (fst v)) (snd v) with
    | NotPosDef => Ok (c_init (fst sy), (false, x))
    | Fails => UB (* C L103: cholmod_solve returns the null pointer *)
    | Factor f => Ok (fst sy, (true, copy (b_nrow (c_buf (fst sy))) (csolve f b) x))
    end.
  (* C L146-149: pinv(p[i]) = i; elements that are not written stay uninitialised *)
  Definition invert (n : nat) (p : list nat) : res (list nat) :=
    do v <- fold_left (fun a i => do a <- a; do k <- rd p i; if k <? length a then Ok (upd a k (Some i)) else UB) (seq 0 n) (Ok (newArray n));
    load n v.
  (* C L134-154, L174-194: factorise, convert, and hand over to MarginalCovarianceCholesky *)
  Definition c_factor (s : cst) (y : Sym) : res (option (mcc K)) :=
    do v <- view (c_buf s);
    match factorize y (b_ncol (c_buf s)) (fst (fst v)) (snd (fst v)) (snd v) with
    | NotPosDef => Ok None
    | Fails => UB (* the numeric part of the factor is not valid *)
    | Factor f =>
      match change_factor f with
      | None => Ok None
      | Some (perm, Lp, Li, Lx) =>
        do pinv <- invert (b_ncol (c_buf s)) perm;
        do M <- setCholeskyFactor recip (b_ncol (c_buf s)) Lp Li Lx (Some pinv); Ok (Some M)
      end
    end.
  (* solveBlocks C L114-162; blocks = None is the null pointer *)
  Definition c_solveBlocks (m : sbm K) (blocks : option (list (nat -> K))) (s : cst) : res (cst * (bool * option (list (nat -> K)))) :=
    do sy <- c_prepare m s;
    do blocks <- (match blocks with
                  | Some l => Ok l
                  | None => if length (s_rbi m) <=? total (s_rbi m) then Ok (repeat (fun _ => k0) (length (s_rbi m))) else UB
                  end);
    do M <- c_factor (fst sy) (snd sy);
    match M with
    | None => Ok (fst sy, (false, Some blocks))
    | Some M => do out <- computeCovariance sort M blocks (s_rbi m); Ok (fst sy, (true, Some out))
    end.
  (* solvePattern C L164-202; None: spinv is not touched *)
  Definition c_solvePattern (m : sbm K) (blockIndices : list (nat * nat)) (s : cst) : res (cst * (bool * option (sbm K))) :=
    do sy <- c_prepare m s;
    do M <- c_factor (fst sy) (snd sy);
    match M with
    | None => Ok (fst sy, (false, None))
    | Some M => do out <- computeCovarianceBlocks sort M (s_rbi m) blockIndices; Ok (fst sy, (true, Some out))
    end.

  (* the calls of a program on one solver, in any order *)
  (* in the model only: the public functions of C (init, solve, solveBlocks, solvePattern) as data *)
  Inductive call :=
  | Init | SetOrder (b : bool)
  | Solve (m : sbm K) (x b : vec K)
  | Blocks (m : sbm K) (blocks : option (list (nat -> K)))
  | Pattern (m : sbm K) (blockIndices : list (nat * nat)).
  (* in the model only: their results *)
  Inductive answer := Done | Solved (ok : bool) (x : vec K) | GotBlocks (ok : bool) (l : option (list (nat -> K))) | GotPattern (ok : bool) (s : option (sbm K)).
  (* in the model only: dispatch to the functions above *)
  Definition c_step (o : call) (s : cst) : res (cst * answer) :=
    match o with
    | Init => Ok (c_init s, Done)
    | SetOrder b => Ok (c_setOrder b s, Done)
    | Solve m x b => do r <- c_solve m x b s; Ok (fst r, Solved (fst (snd r)) (snd (snd r)))
    | Blocks m l => do r <- c_solveBlocks m l s; Ok (fst r, GotBlocks (fst (snd r)) (snd (snd r)))
    | Pattern m l => do r <- c_solvePattern m l s; Ok (fst r, GotPattern (fst (snd r)) (snd (snd r)))
    end.
  (* in the model only: a sequence of calls *)
  Fixpoint c_run (l : list call) (s : cst) : res (list answer) :=
    match l with [] => Ok [] | o :: l' => do r <- c_step o s; do a <- c_run l' (fst r); Ok (snd r :: a) end.

  (** ** LinearSolverQr *)
  Variable QSym : Type.
  (* SuiteSparseQR_symbolic: nrow, ncol, p, i *)
  Variable qr_symbolic : nat -> nat -> list nat -> list nat -> option QSym.
  (* SuiteSparseQR_numeric, qmult with Q^T and solve: None if the status is not CHOLMOD_OK; a null factor gives CHOLMOD_INVALID *)
  Variable qr_solve : option QSym -> nat -> nat -> list nat -> list nat -> list K -> vec K -> option (vec K).
  (* Q L163-165: _cholmodSparse, _cholmodFactor *)
  Record qst := mkQ { q_buf : buf; q_sym : option QSym }.
  (* Q L34-50 *)
  Definition q_new : qst := mkQ buf_new None.
  (* init Q L60-67 *)
  Definition q_init (s : qst) : qst := mkQ (q_buf s) None.
  (* solve Q L69-154 *)
  Definition q_solve (m : sbm K) (x b : vec K) (s : qst) : res (qst * (bool * vec K)) :=
    do u <- fillExt fillUpper fillUpper_values (fun m => nonZeros m * 2) m (match q_sym s with Some _ => true | None => false end) (q_buf s);
    do v <- view u;
    let y := match q_sym s with Some y => Some y | None => qr_symbolic (b_nrow u) (b_ncol u) (fst (fst v)) (snd (fst v)) end in
    match qr_solve y (b_nrow u) (b_ncol u) (fst (fst v)) (snd (fst v)) (snd v) b with
    | None => Ok (mkQ u y, (false, x))
    | Some sol => Ok (mkQ u y, (true, copy (b_ncol u) sol x))
    end.
  (* same code: Q L69-154 *)
  Inductive qcall := QInit | QSolve (m : sbm K) (x b : vec K).
  (* same code: Q L69-154 *)
  Definition q_step (o : qcall) (s : qst) : res (qst * option (bool * vec K)) :=
    match o with
    | QInit => Ok (q_init s, None)
    | QSolve m x b => do r <- q_solve m x b s; Ok (fst r, Some (snd r))
    end.
  (* same code: Q L69-154 *)
  Fixpoint q_run (l : list qcall) (s : qst) : res (list (option (bool * vec K))) :=
    match l with [] => Ok [] | o :: l' => do r <- q_step o s; do a <- q_run l' (fst r); Ok (snd r :: a) end.

  (** ** LinearSolverDense *)
  (* selfadjointView<Upper>().ldlt().solve: it reads the upper triangle only *)
  Variable ldlt : nat -> mat K -> vec K -> vec K.
  (* D L58-89: the blocks on and above the diagonal *)
  Fixpoint dense_upper (m : sbm K) (i c_idx : nat) (cs : list (bmap K)) (D : mat K) : mat K :=
    match cs with
    | [] => D
    | c :: cs' =>
      let c_size := bsize (s_cbi m) i in
      dense_upper m (i + 1) (c_idx + c_size) cs'
        (fold_left (fun D e => if fst e <=? i then write_block D (base (s_rbi m) (fst e)) c_idx (bsize (s_rbi m) (fst e)) c_size (snd e) else D) c D)
    end.
  (* solve D L52-109 *)
  Definition d_solve (m : sbm K) (x b : vec K) : bool * vec K :=
    let H := dense_upper m 0 0 (s_cols m) (fun _ _ => k0) in
    (true, copy (total (s_cbi m)) (ldlt (total (s_cbi m)) (fun p q => if p <=? q then H p q else H q p) b) x).
End Solver.
Arguments buf K : clear implicits. Arguments outcome Fac : clear implicits.
Arguments NotPosDef {Fac}. Arguments Fails {Fac}. Arguments Factor {Fac} f.
Arguments call K : clear implicits. Arguments answer K : clear implicits. Arguments qcall K : clear implicits.
Arguments Init {K}. Arguments SetOrder {K} b. Arguments Done {K}. Arguments QInit {K}.
