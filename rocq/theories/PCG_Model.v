(** * The preconditioned conjugate gradient solver

    sparse_block_matrix/include/sparse_block_matrix/implementation/linear_solver_pcg.hpp (line numbers without file refer to it; "h" is
    sparse_block_matrix/linear_solver_pcg.h). Exact arithmetic in a commutative ring; division, comparison, the constant 0.5 and the inverse of a block
    are parameters. The pointers to off-diagonal blocks that the solver keeps are block positions, dereferenced in the matrix of the current call: this is
    the solver used for one matrix object that stays where it is; a block that is gone is undefined. Vectors are total functions. Verbose output is left out. *)
From Coq Require Import Arith Lia List ZArith Bool.
From Verif Require Import Lib_Ring Lib_Res SBM_Model Cov_Model.
Import ListNotations.

Section PCG.
  Context {K : Type} {R : CRing K}.
  Variable div : K -> K -> K.
  (* <= and > *)
  Variables leb gtb : K -> K -> bool.
  Variable half : K.
  (* MatrixType::inverse() *)
  Variable inv : nat -> mat K -> mat K.

  (* an entry of _indices and _sparseMat: offsets, and the block *)
  (* linear_solver_pcg.h L89-90 *)
  Record ptr := mkPtr { t_row : nat; t_col : nat; t_br : nat; t_bc : nat }.
  (* h L82-92: _tolerance, _residual, _absoluteTolerance, _maxIter, _indices with _sparseMat *)
  Record pcg := mkPcg { p_tol : K; p_res : K; p_abs : bool; p_max : Z; p_ix : list ptr }.
  (* init, h L53-59 *)
  Definition pcg_init (minus_one : K) (P : pcg) : pcg := mkPcg (p_tol P) minus_one (p_abs P) (p_max P) [].

  (* L71-81: the blocks of a column before the diagonal one, and the diagonal one if there is any *)
  Fixpoint scan (i : nat) (c : bmap K) : list nat * option (mat K) :=
    match c with
    | [] => ([], None)
    | (r, B) :: c' => if r =? i then ([], Some B) else let od := scan i c' in (r :: fst od, snd od)
    end.
  (* L66-85: _diag (with the size of the block) and the index; colIdx is the base of the column *)
  Definition diag_of (A : sbm K) : list (nat * mat K) :=
    flat_map (fun i => match snd (scan i (nth i (s_cols A) [])) with Some B => [(bsize (s_cbi A) i, B)] | None => [] end) (seq 0 (length (s_cols A))).
  (* same code: L66-85 *)
  Definition index_of (A : sbm K) : list ptr :=
    flat_map (fun i => map (fun r => mkPtr (base (s_rbi A) r) (base (s_cbi A) i) r i) (fst (scan i (nth i (s_cols A) [])))) (seq 0 (length (s_cols A))).

  (* y.segment(off, n) = v *)
  (* Eigen, VectorBlock assignment *)
  Definition seg_set (y : vec K) (off n : nat) (v : vec K) : vec K := fun p => if (off <=? p) && (p <? off + n) then v (p - off) else y p.
  (* multDiag L134-152: block i at the base of block column i *)
  Definition multDiag (l : list nat) (D : list (nat * mat K)) (src dest : vec K) : vec K :=
    fold_left (fun y i => let e := nth i D (0, fun _ _ => k0) in seg_set y (base l i) (fst e) (mvmul (fst e) (snd e) (fun t => src (base l i + t)))) (seq 0 (length D)) dest.
  (* mult L154-173 *)
  Definition pcg_mult (A : sbm K) (ix : list ptr) (src dest : vec K) : res (vec K) :=
    fold_left (fun x p => do y <- x;
      match get A (t_br p) (t_bc p) with
      | None => UB
      | Some B =>
        let m := bsize (s_rbi A) (t_br p) in let n := bsize (s_cbi A) (t_bc p) in
        let y := seg_add y (t_row p) m (mvmul n B (fun t => src (t_col p + t))) in
        Ok (seg_add y (t_col p) n (mvmul m (mtr B) (fun t => src (t_row p + t))))
      end) ix (Ok (multDiag (s_cbi A) (diag_of A) src dest)).

  (* the local vectors of L87-131 *)
  Record iter := mkIter { i_x : vec K; i_r : vec K; i_d : vec K; i_q : vec K; i_s : vec K; i_dn : K }.
  (* L118-128 *)
  Definition pcg_step (A : sbm K) (ix : list ptr) (J : list (nat * mat K)) (st : iter) : res iter :=
    let n := total (s_rbi A) in
    do q <- pcg_mult A ix (i_d st) (i_q st);
    let a := div (i_dn st) (vdot n (i_d st) q) in
    let x := vadd (i_x st) (vscale a (i_d st)) in
    let r := vsub (i_r st) (vscale a q) in
    let s := multDiag (s_cbi A) J r (i_s st) in
    let dn := vdot n r s in
    let ba := div dn (i_dn st) in
    Ok (mkIter x r (vadd s (vscale ba (i_d st))) q s dn).
  (* L112-129; true: left through the test dn <= d0 *)
  Fixpoint pcg_loop (A : sbm K) (ix : list ptr) (J : list (nat * mat K)) (d0 : K) (k : nat) (st : iter) : res (iter * bool) :=
    match k with
    | O => Ok (st, false)
    | S k' => if leb (i_dn st) d0 then Ok (st, true) else do st' <- pcg_step A ix J st; pcg_loop A ix J d0 k' st'
    end.
  (* the start L88-102 *)
  Definition pcg_start (A : sbm K) (J : list (nat * mat K)) (b : vec K) : iter :=
    let z := fun _ : nat => k0 in
    let d := multDiag (s_cbi A) J b z in
    mkIter z b d z z (vdot (total (s_rbi A)) b d).
  (* L103-108 *)
  Definition threshold (P : pcg) (dn : K) : K :=
    let d0 := kmul (p_tol P) dn in
    if p_abs P && gtb (p_res P) k0 && gtb (p_res P) d0 then p_res P else d0.
  (* L107 *)
  Definition max_iter (P : pcg) (A : sbm K) : nat := if Z.ltb (p_max P) 0 then total (s_rbi A) else Z.to_nat (p_max P).
  (* L74, the inverses of the diagonal blocks *)
  Definition precond (A : sbm K) : list (nat * mat K) := map (fun e => (fst e, inv (fst e) (snd e))) (diag_of A).
  (* solve L60-132: the solver afterwards, x, the returned flag; and how the loop was left *)
  Definition pcg_solve (P : pcg) (A : sbm K) (b : vec K) : res (pcg * vec K * bool * bool) :=
    let ix := match p_ix P with [] => index_of A | l => l end in
    let J := precond A in
    let st := pcg_start A J b in
    do e <- pcg_loop A ix J (threshold P (i_dn st)) (max_iter P A) st;
    Ok (mkPcg (p_tol P) (kmul half (i_dn (fst e))) (p_abs P) (p_max P) ix, i_x (fst e), true, snd e).
End PCG.
Arguments pcg K : clear implicits.
