(** * The four linear system solvers

    aslam_backend/src/BlockCholeskyLinearSystemSolver.cpp ("BC"), SparseCholeskyLinearSystemSolver.cpp ("SC"), DenseQrLinearSystemSolver.cpp ("DQ"),
    SparseQrLinearSystemSolver.cpp ("SQ"), LinearSystemSolver.cpp ("LS"), with implementation/ErrorTerm.hpp ("ET"), ErrorTerm.hpp ("ETh"),
    implementation/JacobianContainerSparseImpl.hpp ("JC") and implementation/Cholmod.hpp ("CH"). Numbers are in any commutative ring. The numerical
    libraries (CHOLMOD, SuiteSparseQR, Eigen's QR) are parameters. Design variable b has block index b and the columns of block b of the layout [l]
    (proved of the code in C13). One thread. Vectors are total functions; their lengths are left out where the code sets them itself. *)
From Coq Require Import Arith Lia List ZArith Bool.
From Verif Require Import Lib_Ring Lib_Res CCM_Model SBM_Model.
Import ListNotations.

Section LinSolve.
  Context {K : Type} {R : CRing K}.

  (* an error term: dimension, the Jacobian container (design variables in the order of block indices), _error, _sqrtInvR, square root of the weight *)
  (* ErrorTerm.hpp L192-201 *)
  Record lterm := mkLt { lt_dim : nat; lt_jac : bmap K; lt_err : vec K; lt_S : mat K; lt_sw : K }.

  (* getWeightedJacobians ET L176-180 with ETh L182-189: evaluateJacobians through apply(sqrtWeight * sqrtInvR^T) *)
  Definition wjac (t : lterm) : bmap K := map (fun e => (fst e, mmul (lt_dim t) (mscale (lt_sw t) (mtr (lt_S t))) (snd e))) (lt_jac t).
  (* getWeightedError ET L183-190 *)
  Definition werr (t : lterm) : vec K := fun i => kmul (mvmul (lt_dim t) (mtr (lt_S t)) (lt_err t) i) (lt_sw t).
  (* evaluateErrors LS L17-28: _e gets the negative weighted errors, one term after the other *)
  Fixpoint eval_errors (ts : list lterm) (row : nat) (e : vec K) : vec K :=
    match ts with
    | [] => e
    | t :: ts' => eval_errors ts' (row + lt_dim t) (fun p => if (row <=? p) && (p <? row + lt_dim t) then kopp (werr t (p - row)) else e p)
    end.
  (* same code: LS L17-28 *)
  Definition jrows (ts : list lterm) : nat := list_sum (map lt_dim ts).

  (** ** block Cholesky *)
  (* evaluateHessian JC L123-128: the scaled copy; [s b] is the scaling of design variable b; ET L114 passes sqrtWeight * sqrtInvR *)
  Definition hjac (s : nat -> K) (t : lterm) : bmap K :=
    map (fun e => (fst e, mmul (lt_dim t) (mscale (s (fst e)) (mtr (mscale (lt_sw t) (lt_S t)))) (snd e))) (lt_jac t).
  (* JC L132 *)
  Definition herr (t : lterm) : vec K := mvmul (lt_dim t) (mtr (mscale (lt_sw t) (lt_S t))) (lt_err t).
  (* buildCorrelatedHessianBlock JC L69-94 *)
  Fixpoint corr (dim b1 : nat) (J1 : mat K) (es : bmap K) (H : sbm K) : res (sbm K) :=
    match es with
    | [] => Ok H
    | (b2, J2) :: es' => do H' <- add_to H b1 b2 (mmul dim (mtr J1) J2); corr dim b1 J1 es' H'
    end.
  (* y.segment(off, n) -= v *)
  (* same code: JC L69-94 *)
  Definition seg_sub (y : vec K) (off n : nat) (v : vec K) : vec K := fun p => if (off <=? p) && (p <? off + n) then ksub (y p) (v (p - off)) else y p.
  (* buildHessianBlock JC L97-114 *)
  Fixpoint hblocks (dim : nat) (e : vec K) (es : bmap K) (H : sbm K) (rhs : vec K) : res (sbm K * vec K) :=
    match es with
    | [] => Ok (H, rhs)
    | (b1, J1) :: es' =>
      let rhs' := seg_sub rhs (base (s_rbi H) b1) (bsize (s_rbi H) b1) (mvmul dim (mtr J1) e) in
      do H' <- corr dim b1 J1 es H; hblocks dim e es' H' rhs'
    end.
  (* buildSystem BC L60-74 *)
  Definition bc_build (s : nat -> K) (ts : list lterm) (H : sbm K) : res (sbm K * vec K) :=
    fold_left (fun r t => do Hr <- r; hblocks (lt_dim t) (herr t) (hjac s t) (fst Hr) (snd Hr)) ts (Ok (clear false H, fun _ => k0)).

  (* _H, _rhs, _diagonalConditioner, _useDiagonalConditioner *)
  (* BlockCholeskyLinearSystemSolver.hpp L66, LinearSystemSolver.hpp L107-116 *)
  Record bc := mkBc { bc_H : sbm K; bc_rhs : vec K; bc_c : vec K; bc_use : bool }.
  (* block.diagonal() += d.segment(off, rows) *)
  (* same code: BlockCholeskyLinearSystemSolver.hpp L66, LinearSystemSolver.hpp L107-116 *)
  Definition add_diag (B : mat K) (d : vec K) (off : nat) : mat K := fun i j => if i =? j then kadd (B i j) (d (off + i)) else B i j.
  (* the loops BC L82-87, L95-99, L132-137, L144-148; rowBase is the base of the block *)
  Definition on_diagonal (d : vec K) (H : sbm K) : res (sbm K) :=
    fold_left (fun r i => do h <- r; do B <- blockAlloc h i i; setBlock h i i (add_diag B d (base (s_rbi h) i))) (seq 0 (length (s_rbi H))) (Ok H).
  (* same code: BC L82-87, L95-99, L132-137, L144-148 *)
  Definition vsq (c : vec K) : vec K := fun i => kmul (c i) (c i).
  (* same code: BC L82-87, L95-99, L132-137, L144-148 *)
  Definition vneg (c : vec K) : vec K := fun i => kopp (c i).
  (* _solver->solve(H, x, rhs): None is failure *)
  Variable bsolve : sbm K -> vec K -> option (vec K).
  (* solveSystem BC L76-108: the solver afterwards and outDx *)
  Definition bc_solve (b : bc) : res (bc * option (vec K)) :=
    do H1 <- (if bc_use b then on_diagonal (vsq (bc_c b)) (bc_H b) else Ok (bc_H b));
    let x := bsolve H1 (bc_rhs b) in
    do H2 <- (if bc_use b then on_diagonal (vneg (bc_c b)) H1 else Ok H1);
    Ok (mkBc H2 (bc_rhs b) (bc_c b) (bc_use b), x).
  (* _solver->solvePattern(outP, blockIndices, H): None is failure *)
  Variable pattern : sbm K -> option (sbm K).
  (* computeCovarianceBlocks BC L124-150: the solver afterwards and the result; None: the exception of L140, which leaves before the loop that undoes the change *)
  Definition bc_cov (b : bc) : res (bc * option (sbm K)) :=
    do H1 <- (if bc_use b then on_diagonal (vsq (bc_c b)) (bc_H b) else Ok (bc_H b));
    match pattern H1 with
    | None => Ok (mkBc H1 (bc_rhs b) (bc_c b) (bc_use b), None)
    | Some P => do H2 <- (if bc_use b then on_diagonal (vneg (bc_c b)) H1 else Ok H1); Ok (mkBc H2 (bc_rhs b) (bc_c b) (bc_use b), Some P)
    end.
  (* rhsJtJrhs BC L174-178; SparseBlockMatrixWrapper.cpp L82-86: multiply *)
  Definition bc_rhsJtJrhs (b : bc) : K := vdot (total (s_rbi (bc_H b))) (bc_rhs b) (multiplyVec (bc_H b) (bc_rhs b)).

  (** ** sparse Cholesky and sparse QR *)
  (* the design variables and the error terms as the builder of the transposed Jacobian sees them *)
  (* in the model only: translation to CCM_Model *)
  Definition dv_of (l : list nat) (b : nat) : jdv := mkJdv true (Z.of_nat b) (bsize l b) (base l b).
  (* in the model only: translation to CCM_Model *)
  Definition all_dvs (l : list nat) : list jdv := map (dv_of l) (seq 0 (length l)).
  (* in the model only: translation to CCM_Model *)
  Definition et_of (l : list nat) (t : lterm) : eterm K :=
    mkEt (lt_dim t) (map (fun e => dv_of l (fst e)) (lt_jac t)) (map (fun e => mkJb (dv_of l (fst e)) (lt_dim t) (bsize l (fst e)) (snd e)) (wjac t)).
  (* J_transpose, _e, _rhs, _diagonalConditioner, _useDiagonalConditioner *)
  (* SparseCholeskyLinearSystemSolver.hpp, LinearSystemSolver.hpp L107-116 *)
  Record sc := mkSc { sc_J : ccm K; sc_e : vec K; sc_rhs : vec K; sc_c : list K; sc_use : bool }.
  (* initMatrixStructure (SC L27, SQ L39) and buildSystem (SC L43-50, SQ L54-62); _e has jrows elements *)
  Definition sc_build (l : list nat) (ts : list lterm) (e : vec K) (c : list K) (use : bool) (m : ccm K) : res sc :=
    do mp <- initStructure k0 (all_dvs l) (map (et_of l) ts) m;
    do m1 <- build (combine (map (et_of l) ts) (snd mp)) (fst mp);
    do rhs <- rightMultiply m1 (jrows ts) e;
    Ok (mkSc m1 e rhs c use).
  (* Cholmod::solve CH L387-399: the solution of A A^T x = rhs, None: null pointer *)
  Variable csolve : ccm K -> vec K -> option (vec K).
  (* solveSystem SC L52-93 *)
  Definition sc_solve (x : sc) : res (sc * option (vec K)) :=
    do m1 <- (if sc_use x then pushDiagonal (sc_c x) (sc_J x) else Ok (sc_J x));
    let sol := csolve m1 (sc_rhs x) in
    do m2 <- (if sc_use x then popDiagonal m1 else Ok m1);
    Ok (mkSc m2 (sc_e x) (sc_rhs x) (sc_c x) (sc_use x), sol).
  (* rhsJtJrhs SC L110-115, SQ L186-191; Jrhs has as many elements as J_transpose has columns *)
  Definition sc_rhsJtJrhs (x : sc) : res K :=
    do y <- leftMultiply (sc_J x) (c_rows (sc_J x)) (sc_rhs x); Ok (vdot (used_cols (sc_J x)) y y).

  (* SQ L38: the conditioner is switched off whatever the caller asked for *)
  Definition sq_build (l : list nat) (ts : list lterm) (e : vec K) (c : list K) (use : bool) (m : ccm K) : res sc := sc_build l ts e c false m.
  (* CH L404-441: SuiteSparseQR's least squares solution of B y = b for the rows x cols matrix B; None: the factorisation failed *)
  Variable qr : nat -> nat -> mat K -> vec K -> option (vec K).
  (* 1 / colNorm, or 0 below normTol: CH L414-420 *)
  Variable colscale : nat -> mat K -> nat -> K.
  (* Cholmod::solve CH L404-441 for the matrix J; with column scaling a failed factorisation dereferences the null pointer res (L434) *)
  Definition qr_solve (rows cols : nat) (J : mat K) (b : vec K) (norm : bool) : res (option (vec K)) :=
    if norm then
      let v := colscale rows J in
      match qr rows cols (fun r c => kmul (J r c) (v c)) b with
      | None => UB
      | Some y => Ok (Some (fun i => kmul (v i) (y i)))
      end
    else Ok (qr rows cols J b).
  (* the dense matrix of J_transpose, transposed *)
  (* same code: CH L404-441, L434 *)
  Definition view_t (m : ccm K) : res (mat K) := do D <- CCM_Model.toDense k0 m; Ok (mtr D).
  (* solveSystem SQ L64-108 *)
  Definition sq_solve (norm : bool) (x : sc) : res (sc * option (vec K)) :=
    do m1 <- (if sc_use x then pushDiagonal (sc_c x) (sc_J x) else Ok (sc_J x));
    do J <- view_t m1;
    do sol <- qr_solve (c_cols m1) (c_rows m1) J (sc_e x) norm;
    do m2 <- (if sc_use x then popDiagonal m1 else Ok m1);
    Ok (mkSc m2 (sc_e x) (sc_rhs x) (sc_c x) (sc_use x), sol).

  (** ** dense QR *)
  (* _J._M with its number of rows, _e, _rhs, _diagonalConditioner; _useDiagonalConditioner is None as long as nothing has been stored in it *)
  (* DenseQrLinearSystemSolver.hpp L55, LinearSystemSolver.hpp L107-116 *)
  Record dq := mkDq { dq_J : mat K; dq_rows : nat; dq_cols : nat; dq_e : vec K; dq_rhs : vec K; dq_c : vec K; dq_use : option bool }.
  (* the constructor DQ L9-11, LS L11-14, and initMatrixStructure LS L97-118 with DQ L27-31: the flag is not set *)
  Definition dq_new (rows cols : nat) (e : vec K) (use : bool) : dq := mkDq (fun _ _ => k0) rows cols e (fun _ => k0) (fun _ => k0) None.
  (* evaluateJacobians DQ L61-72: blocks are assigned *)
  Definition dq_term (l : list nat) (row : nat) (t : lterm) (J : mat K) : mat K :=
    fold_left (fun J e => write_block J row (base l (fst e)) (lt_dim t) (bsize l (fst e)) (snd e)) (wjac t) J.
  (* same code: DQ L61-72 *)
  Fixpoint dq_terms (l : list nat) (ts : list lterm) (row : nat) (J : mat K) : mat K :=
    match ts with [] => J | t :: ts' => dq_terms l ts' (row + lt_dim t) (dq_term l row t J) end.
  (* buildSystem DQ L33-38 *)
  Definition dq_build (l : list nat) (ts : list lterm) (e : vec K) (x : dq) : dq :=
    let J := dq_terms l ts 0 (fun _ _ => k0) in
    mkDq J (dq_rows x) (dq_cols x) e (mvmul (dq_rows x) (mtr J) e) (dq_c x) (dq_use x).
  (* colPivHouseholderQr().solve *)
  Variable hqr : nat -> nat -> mat K -> vec K -> vec K.
  (* conservativeResize to [rows] rows: the elements that are new are not set *)
  Variable garbage : nat -> nat -> K.
  (* same code: DQ L33-38 *)
  Definition resize_rows (old rows : nat) (J : mat K) : mat K := fun r c => if r <? old then J r c else garbage r c.
  (* same code: DQ L33-38 *)
  Definition resize_vec (old : nat) (e : vec K) : vec K := fun r => if r <? old then e r else garbage r 0.
  (* solveSystem DQ L41-58 *)
  Definition dq_solve (x : dq) : res (dq * vec K) :=
    match dq_use x with
    | None => UB
    | Some use =>
      let rows := dq_rows x in let cols := dq_cols x in
      let J1 := if use then
          let J' := resize_rows rows (rows + cols) (dq_J x) in
          fun r c => if rows <=? r then (if r - rows =? c then dq_c x c else k0) else J' r c
        else dq_J x in
      let e1 := if use then let e' := resize_vec rows (dq_e x) in fun r => if rows <=? r then k0 else e' r else dq_e x in
      let n := if use then rows + cols else rows in
      let dx := hqr n cols J1 e1 in
      let J2 := if use then resize_rows rows rows J1 else J1 in
      let e2 := if use then resize_vec rows e1 else e1 in
      Ok (mkDq J2 rows cols e2 (dq_rhs x) (dq_c x) (Some use), dx)
    end.
  (* rhsJtJrhs DQ L90-94 *)
  Definition dq_rhsJtJrhs (x : dq) : K := let y := mvmul (dq_cols x) (dq_J x) (dq_rhs x) in vdot (dq_rows x) y y.
End LinSolve.
Arguments lterm K : clear implicits. Arguments bc K : clear implicits. Arguments sc K : clear implicits. Arguments dq K : clear implicits.
