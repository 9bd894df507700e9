(** * Ownership of the objects CHOLMOD and SuiteSparseQR hand out

    Models, function by function, who frees what in
    aslam_backend/include/aslam/backend/implementation/Cholmod.hpp ("CH"), aslam_backend/src/SparseCholeskyLinearSystemSolver.cpp ("SC"),
    aslam_backend/src/SparseQrLinearSystemSolver.cpp ("SQ"), sparse_block_matrix/include/sparse_block_matrix/linear_solver_cholmod.h ("LC") and
    linear_solver_spqr.h ("LQ").

    The heap is the list of objects that are allocated and not yet freed. A call into the libraries is answered by an oracle: null or not, the int it
    returns, the status it leaves in cholmod_common, whether it allocates the workspace of cholmod_common. Undefined behaviour is split in two: following a
    null pointer, and using or freeing an object that is not allocated.
    Simplified: numbers, sizes and patterns are left out (LinSolve_Model, BSolver_Model); the arrays of CholmodExt, the block arrays of solveBlocks and
    Eigen's and the standard library's memory are left out; the workspace is one object. *)
From Coq Require Import Arith List Bool.
Import ListNotations.

(* cholmod_factor, SuiteSparseQR_factorization, cholmod_sparse, cholmod_dense, the workspace inside cholmod_common *)
(* implementation/Cholmod.hpp, the types CHOLMOD and SuiteSparseQR allocate *)
Inductive kind := KFactor | KQr | KSparse | KDense | KWork.
(* equality of kinds (helper) *)
Definition kind_eqb (a b : kind) : bool :=
  match a, b with KFactor, KFactor | KQr, KQr | KSparse, KSparse | KDense, KDense | KWork, KWork => true | _, _ => false end.
(* a pointer: None is NULL *)
(* in the model only: helper *)
Definition ptr := option nat.

(* cholmod_common::status, CH L294-327: CHOLMOD_OK, CHOLMOD_NOT_POSDEF, anything else *)
Inductive stat := SOk | SNotPosdef | SOther.
(* comparisons with CHOLMOD_OK (CH L216, L316) and CHOLMOD_NOT_POSDEF (LC L91) *)
Definition stat_ok (s : stat) : bool := match s with SOk => true | _ => false end.
(* same code: CH L216, L316, LC L91 *)
Definition not_posdef (s : stat) : bool := match s with SNotPosdef => true | _ => false end.

(* the functions of the libraries that are called *)
(* in the model only: names for the functions of CHOLMOD, SuiteSparseQR and AMD *)
Inductive call := CAnalyze | CFactorize | CSolve | CTranspose | CSymbolic | CNumeric | CAllocDense | CScale | CQmult | CQrSolve | CQr | CAat | CAmd | CChange.
(* an answer: a null pointer?, a nonzero int?, the status, is the workspace allocated?, does the result have the expected size and arrays? *)
(* in the model only: what they may answer *)
Record ans := mkAns { an_null : bool; an_ret : bool; an_stat : stat; an_work : bool; an_fit : bool }.

(* the allocated objects, the next address, cholmod_common::status and workspace, the number of library calls so far, the member _factor (_cholmodFactor),
   and whether _R holds entries (SQ L160) *)
Record world := mkWorld { live : list (nat * kind); fresh : nat; status : stat; work : ptr; tick : nat; factor : ptr; rset : bool }.

(* a call returns, throws, follows a null pointer, or touches what is not allocated *)
(* in the model only: outcomes *)
Inductive out (A : Type) := Ret (a : A) (w : world) | Exc (w : world) | UBnull | UBdead.
Arguments Ret {A}. Arguments Exc {A}. Arguments UBnull {A}. Arguments UBdead {A}.
(* programs (helpers): a C++ statement reads and changes the world *)
Definition M (A : Type) := world -> out A.
(* in the model only: helper *)
Definition ret {A} (a : A) : M A := fun w => Ret a w.
(* in the model only: helper *)
Definition seqm {A B} (m : M A) (f : A -> M B) : M B := fun w => match m w with Ret a w' => f a w' | Exc w' => Exc w' | UBnull => UBnull | UBdead => UBdead end.
Notation "'let!' x := m 'in' f" := (seqm m (fun x => f)) (at level 200, x name, f at level 200).
Notation "m ;; f" := (seqm m (fun _ => f)) (at level 199, right associativity).
(* in the model only: helper *)
Definition throw {A} : M A := fun w => Exc w.
(* SM_ASSERT_TRUE and its relatives *)
(* in the model only: helper *)
Definition assert (b : bool) : M unit := if b then ret tt else throw.
(* the test of a pointer *)
(* in the model only: helper *)
Definition is_null (p : ptr) : bool := match p with None => true | Some _ => false end.

(* take an object out of the list *)
(* in the model only: lists *)
Fixpoint take (i : nat) (k : kind) (l : list (nat * kind)) : option (list (nat * kind)) :=
  match l with
  | [] => None
  | (j, q) :: l' => if (i =? j) && kind_eqb k q then Some l' else match take i k l' with Some r => Some ((j, q) :: r) | None => None end
  end.
(* assignments to members (helpers) *)
Definition set_live l w := mkWorld l (fresh w) (status w) (work w) (tick w) (factor w) (rset w).
(* in the model only: helper *)
Definition set_factor (p : ptr) : M unit := fun w => Ret tt (mkWorld (live w) (fresh w) (status w) (work w) (tick w) p (rset w)).
(* in the model only: helper *)
Definition get_factor : M ptr := fun w => Ret (factor w) w.
(* in the model only: helper *)
Definition get_status : M stat := fun w => Ret (status w) w.
(* in the model only: helper *)
Definition set_rset (b : bool) : M unit := fun w => Ret tt (mkWorld (live w) (fresh w) (status w) (work w) (tick w) (factor w) b).

(* reading or writing through a pointer *)
(* in the model only: memory *)
Definition touch (k : kind) (p : ptr) : M unit := fun w =>
  match p with None => UBnull | Some i => match take i k (live w) with Some _ => Ret tt w | None => UBdead end end.
(* the free functions of the libraries (cholmod_free_factor, cholmod_free_sparse, cholmod_free_dense, SuiteSparseQR_free) accept null *)
(* in the model only: memory *)
Definition lib_free (k : kind) (p : ptr) : M unit := fun w =>
  match p with None => Ret tt w | Some i => match take i k (live w) with Some l => Ret tt (set_live l w) | None => UBdead end end.

Section Calls.
  Variable orc : call -> nat -> ans.

  (* one call into a library *)
  (* in the model only: a library call *)
  Definition ask (c : call) : M ans := fun w =>
    let a := orc c (tick w) in
    let w1 := mkWorld (live w) (fresh w) (an_stat a) (work w) (S (tick w)) (factor w) (rset w) in
    Ret a (if an_work a && is_null (work w1) then mkWorld ((fresh w1, KWork) :: live w1) (S (fresh w1)) (status w1) (Some (fresh w1)) (tick w1) (factor w1) (rset w1) else w1).
  (* one that hands out an object *)
  (* in the model only: a library call *)
  Definition obtain (c : call) (k : kind) : M (ptr * bool) :=
    let! a := ask c in fun w => if an_null a then Ret (None, an_fit a) w
      else Ret (Some (fresh w), an_fit a) (mkWorld ((fresh w, k) :: live w) (S (fresh w)) (status w) (work w) (tick w) (factor w) (rset w)).

  (* CH L168-171, LC L34-47, LQ L34-50: cholmod_start and the members; nothing is allocated *)
  Definition constructed : world := mkWorld [] 0 SOk None 0 None false.
  (* cholmod_start on a cholmod_common in use, LQ L81: everything in it is set anew, also the pointers to the workspace *)
  Definition lib_start : M unit := fun w => Ret tt (mkWorld (live w) (fresh w) SOk None (tick w) (factor w) (rset w)).
  (* cholmod_finish, CH L174-177: frees the workspace *)
  Definition lib_finish : M unit := fun w =>
    (lib_free KWork (work w);; fun w => Ret tt (mkWorld (live w) (fresh w) (status w) None (tick w) (factor w) (rset w))) w.

  (** ** Cholmod *)
  (* analyze CH L180-218 *)
  Definition ch_analyze : M ptr :=
    let! r := obtain CAnalyze KFactor in
    let! s := get_status in
    assert (stat_ok s);;
    assert (negb (is_null (fst r)));;
    ret (fst r).
  (* analyzeQR CH L223-245: the transposed copy is freed before the result is checked; SuiteSparseQR_symbolic refuses a null matrix *)
  Definition ch_analyzeQR : M ptr :=
    let! j := obtain CTranspose KSparse in
    let! r := obtain CSymbolic KQr in
    lib_free KSparse (fst j);;
    let! s := get_status in
    assert (stat_ok s);;
    assert (negb (is_null (fst r)));;
    ret (fst r).
  (* free CH L249-284 *)
  Definition ch_free (k : kind) (p : ptr) : M unit := if is_null p then ret tt else lib_free k p.
  (* factorize CH L287-328; the matrix is the view of J_transpose, never null *)
  Definition ch_factorize (l : ptr) : M bool :=
    assert (negb (is_null l));;
    touch KFactor l;;
    let! a := ask CFactorize in
    ret (stat_ok (an_stat a) && an_ret a).
  (* factorize CH L332-382; at: the matrix, None for the view of J_transpose with transpose = true *)
  Definition ch_factorizeQR (at_ : ptr) (l : ptr) : M bool :=
    assert (negb (is_null at_));;
    assert (negb (is_null l));;
    touch KSparse at_;;
    touch KQr l;;
    let! a := ask CNumeric in
    ret (stat_ok (an_stat a) && an_ret a).
  (* CH L332-382 with transpose = true (L335, L376) *)
  Definition ch_factorizeQR_transposed (l : ptr) : M bool :=
    let! t := obtain CTranspose KSparse in
    let! b := ch_factorizeQR (fst t) l in
    lib_free KSparse (fst t);;
    ret b.
  (* solve CH L387-399 *)
  Definition ch_solve (l : ptr) : M (ptr * bool) :=
    let! b := ch_factorize l in
    if b then obtain CSolve KDense else ret (None, true).
  (* solve CH L404-441 *)
  Definition ch_solveQR (l : ptr) (norm : bool) : M (ptr * bool) :=
    let! j := obtain CTranspose KSparse in
    let! scaling :=
      (if norm then
         touch KSparse (fst j);;
         let! s := obtain CAllocDense KDense in
         touch KDense (fst s);;
         let! a := ask CScale in
         assert (an_ret a);;
         ret (fst s)
       else ret None) in
    let! b := ch_factorizeQR (fst j) l in
    let! res :=
      (if b then
         let! y := obtain CQmult KDense in
         let! r := obtain CQrSolve KDense in
         lib_free KDense (fst y);;
         ret r
       else ret (None, true)) in
    (if norm then
       touch KDense scaling;;
       touch KDense (fst res);;
       touch KSparse (fst j);;
       lib_free KDense scaling
     else ret tt);;
    lib_free KSparse (fst j);;
    ret res.
  (* getR CH L446-453 *)
  Definition ch_getR : M (ptr * bool) :=
    let! j := obtain CTranspose KSparse in
    touch KSparse (fst j);;
    let! r := obtain CQr KSparse in
    let! s := get_status in
    assert (stat_ok s);;
    lib_free KSparse (fst j);;
    ret r.

  (** ** SparseCholeskyLinearSystemSolver *)
  (* initMatrixStructureImplementation SC L18-24, SQ L30-36: the old factor is freed *)
  Definition free_factor (k : kind) : M unit :=
    let! f := get_factor in
    if is_null f then ret tt else (ch_free k f;; set_factor None).
  (* the end of solveSystem SC L73-92, SQ L86-103: copy the solution, free it; with a solution of wrong size it is freed before the exception goes on *)
  Definition copy_out (sol : ptr) (fit : bool) : M bool :=
    if is_null sol then ret false
    else touch KDense sol;; (if fit then (ch_free KDense sol;; ret true) else (ch_free KDense sol;; throw)).
  (* solveSystem SC L52-93 *)
  Definition sc_solve : M bool :=
    let! f := get_factor in
    (if is_null f then (let! p := ch_analyze in set_factor p) else ret tt);;
    let! f := get_factor in
    let! sol := ch_solve f in
    copy_out (fst sol) (snd sol).
  (* the destructor SC L12-16, then ~Cholmod CH L174-177 *)
  Definition sc_destroy : M unit := let! f := get_factor in (if is_null f then ret tt else ch_free KFactor f);; lib_finish.

  (* the calls of a user; buildSystem does not call CHOLMOD *)
  (* SC L18-93 *)
  Inductive sc_op := ScInit | ScBuild | ScSolve.
  (* SC L18-93 *)
  Definition sc_exec (o : sc_op) : M unit :=
    match o with ScInit => free_factor KFactor | ScBuild => ret tt | ScSolve => let! _ := sc_solve in ret tt end.

  (** ** SparseQrLinearSystemSolver *)
  (* solveSystem SQ L64-108; verbose reads the rank from the factor *)
  Definition sq_solve (norm verbose : bool) : M bool :=
    let! f := get_factor in
    (if is_null f then (let! p := ch_analyzeQR in set_factor p) else ret tt);;
    let! f := get_factor in
    let! sol := ch_solveQR f norm in
    let! b := copy_out (fst sol) (snd sol) in
    (if b && verbose then touch KQr f else ret tt);;
    ret b.
  (* getR SQ L158-170; fromCholmodSparse may throw (CCM_Model); entries: the result has entries *)
  Definition sq_getR (entries : bool) : M unit := fun w =>
    if rset w then Ret tt w
    else (let! r := ch_getR in
          assert (snd r);;
          ch_free KSparse (fst r);;
          set_rset entries) w.
  (* analyzeSystem SQ L176-184 *)
  Definition sq_analyze : M unit :=
    let! f := get_factor in
    (if is_null f then (let! p := ch_analyzeQR in set_factor p) else ret tt);;
    let! f := get_factor in
    let! b := ch_factorizeQR_transposed f in
    assert b.
  (* getRank, getTol, getPermutationVector SQ L130-156 *)
  Definition sq_query : M unit := let! f := get_factor in assert (negb (is_null f));; touch KQr f.
  (* the destructor SQ L22-27, then ~Cholmod *)
  Definition sq_destroy : M unit := free_factor KQr;; lib_finish.

  (* the public members of SQ L30-184 that call CHOLMOD *)
  Inductive sq_op := SqInit | SqBuild | SqSolve (norm verbose : bool) | SqGetR (entries : bool) | SqAnalyze | SqQuery.
  (* SQ L30-184 *)
  Definition sq_exec (o : sq_op) : M unit :=
    match o with
    | SqInit => free_factor KQr
    | SqBuild => set_rset false (* SQ L61: _R.clear() *)
    | SqSolve norm verbose => let! _ := sq_solve norm verbose in ret tt
    | SqGetR entries => sq_getR entries
    | SqAnalyze => sq_analyze
    | SqQuery => sq_query
    end.

  (** ** LinearSolverCholmod *)
  (* computeSymbolicDecomposition LC L217-277; with block ordering cholmod_amd is asked first and may fail *)
  Definition lc_symbolic (blockOrdering : bool) : M unit :=
    if blockOrdering then
      let! a := ask CAmd in
      if an_ret a then (let! p := obtain CAnalyze KFactor in set_factor (fst p)) else ret tt
    else let! p := obtain CAnalyze KFactor in set_factor (fst p).
  (* cholmod_factorize on the member: a null factor is refused by CHOLMOD *)
  (* same code: LC L217-277 *)
  Definition lc_factorize (f : ptr) : M ans := (if is_null f then ret tt else touch KFactor f);; ask CFactorize.
  (* solve LC L70-112 *)
  Definition lc_solve (blockOrdering : bool) : M bool :=
    let! f := get_factor in
    (if is_null f then lc_symbolic blockOrdering else ret tt);;
    let! f := get_factor in
    let! a := lc_factorize f in
    if not_posdef (an_stat a) then ((if is_null f then ret tt else (lib_free KFactor f;; set_factor None));; ret false)
    else
      let! x := obtain CSolve KDense in
      touch KDense (fst x);;
      lib_free KDense (fst x);;
      ret true.
  (* solveBlocks LC L114-162 and solvePattern LC L164-202: what they do to the factor is the same *)
  Definition lc_inverse (blockOrdering : bool) : M bool :=
    let! f := get_factor in
    (if is_null f then lc_symbolic blockOrdering else ret tt);;
    let! f := get_factor in
    let! a := lc_factorize f in
    if not_posdef (an_stat a) then ret false
    else
      let! c := ask CChange in
      if an_ret c then (touch KFactor f;; ret true) else ret false.
  (* the destructor LC L49-57 *)
  Definition lc_destroy : M unit :=
    (let! f := get_factor in if is_null f then ret tt else (lib_free KFactor f;; set_factor None));; lib_finish.
  (* the members of LC L59-202 *)
  Inductive lc_op := LcInit | LcSolve (blockOrdering : bool) | LcInverse (blockOrdering : bool).
  (* LC L59-202 *)
  Definition lc_exec (o : lc_op) : M unit :=
    match o with
    | LcInit => let! f := get_factor in (if is_null f then ret tt else (lib_free KFactor f;; set_factor None)) (* LC L59-68 *)
    | LcSolve b => let! _ := lc_solve b in ret tt
    | LcInverse b => let! _ := lc_inverse b in ret tt
    end.

  (** ** LinearSolverQr *)
  (* solve LQ L69-154: CHOLMOD is started again each time; SuiteSparseQR refuses null pointers *)
  Definition lq_solve : M bool :=
    lib_start;;
    let! f := get_factor in
    (if is_null f then (let! p := obtain CSymbolic KQr in set_factor (fst p)) else ret tt);;
    let! f := get_factor in
    (if is_null f then ret tt else touch KQr f);;
    let! _ := ask CNumeric in
    let! y := obtain CQmult KDense in
    let! x := obtain CQrSolve KDense in
    let! s := get_status in
    if stat_ok s then
      touch KDense (fst x);;
      lib_free KDense (fst x);;
      lib_free KDense (fst y);;
      ret true
    else ret false.
  (* the destructor LQ L52-58, init LQ L60-67 *)
  Definition lq_destroy : M unit := (let! f := get_factor in if is_null f then ret tt else lib_free KQr f);; lib_finish.
  (* the members of LQ L60-154 *)
  Inductive lq_op := LqInit | LqSolve.
  (* LQ L60-154 *)
  Definition lq_exec (o : lq_op) : M unit :=
    match o with
    | LqInit => let! f := get_factor in (if is_null f then ret tt else (lib_free KQr f;; set_factor None))
    | LqSolve => let! _ := lq_solve in ret tt
    end.
End Calls.

(* a user's calls one after the other; a call that throws leaves the objects as they are at that point, its exception is caught and counted *)
(* in the model only: a sequence of calls *)
Fixpoint runs {O : Type} (exec : O -> M unit) (os : list O) (n : nat) : M nat := fun w =>
  match os with
  | [] => Ret n w
  | o :: os' => match exec o w with Ret _ w' => runs exec os' n w' | Exc w' => runs exec os' (S n) w' | UBnull => UBnull | UBdead => UBdead end
  end.
