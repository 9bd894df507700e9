(** * The Schur complement

    aslam_backend/src/sparse_matrix_functions.cpp (line numbers refer to it). Block matrices as in SBM_Model.v; the inverse of Eigen is a parameter.
    Vectors are total functions: that [rhs] and [dx] are long enough is not modelled. *)
From Coq Require Import Arith Lia List Bool.
From Verif Require Import Lib_Ring Lib_Res SBM_Model.
Import ListNotations.

Section Schur.
  Context {K : Type} {R : CRing K}.
  (* MatrixXd::inverse() of an n x n matrix *)
  Variable inv : nat -> mat K -> mat K.

  (* M.diagonal().array() += a *)
  (* in the model only: Eigen *)
  Definition addDiag (a : K) (M : mat K) : mat K := fun i j => if i =? j then kadd (M i j) a else M i j.
  (* y.segment(off, n) -= v *)
  (* in the model only: Eigen *)
  Definition seg_sub (y : vec K) (off n : nat) (v : vec K) : vec K := fun p => if (off <=? p) && (p <? off + n) then ksub (y p) (v (p - off)) else y p.
  (* ( *d.block(r, c, true)) -= B *)
  (* same code: Eigen *)
  Definition sub_from (d : sbm K) (r c : nat) (B : mat K) : res (sbm K) := do D <- blockAlloc d r c; setBlock d r c (msub D B).
  (* the blocks before the first one with row m0 or more: the loop conditions L46, L50, L77 *)
  Fixpoint above (m0 : nat) (c : bmap K) : bmap K :=
    match c with [] => [] | e :: c' => if fst e <? m0 then e :: above m0 c' else [] end.
  (* L46-53: the blocks of one column; s the size of the marginalised block, v its part of the right hand side *)
  Fixpoint schur_col (l : list nat) (s : nat) (v : vec K) (iV : mat K) (W : bmap K) (Ab : sbm K * vec K) : res (sbm K * vec K) :=
    match W with
    | [] => Ok Ab
    | (j, Wj) :: W' =>
      let Y := mmul s Wj iV in
      let b := seg_sub (snd Ab) (base l j) (bsize l j) (mvmul s Y v) in
      do A <- fold_left (fun x k => do a <- x; sub_from a j (fst k) (mmul s Y (mtr (snd k)))) W (Ok (fst Ab));
      schur_col l s v iV W' (A, b)
    end.
  (* same code: L46-53 *)
  Record schur := mkSchur { sc_H : sbm K; sc_A : sbm K; sc_inv : list (mat K); sc_b : vec K }.
  (* the matrix that is inverted, L30-37 *)
  Definition damped (lm : bool) (lambda : K) (V : mat K) : mat K := if lm then addDiag lambda V else V.
  (* L24-54 *)
  Definition schur_step (rhs : vec K) (lambda : K) (m0 : nat) (lm : bool) (x : schur) (i : nat) : res schur :=
    let bi := m0 + i in
    let l := s_rbi (sc_H x) in
    let s := bsize l bi in
    do V <- blockAlloc (sc_H x) bi bi;
    do H <- setBlock (sc_H x) bi bi V;
    let iV := inv s (damped lm lambda V) in
    do Ab <- schur_col l s (fun t => rhs (base l bi + t)) iV (above m0 (nth bi (s_cols H) [])) (sc_A x, sc_b x);
    Ok (mkSchur H (fst Ab) (sc_inv x ++ [iV]) (snd Ab)).
  (* L55-60 *)
  Definition damp_all (lambda : K) (A : sbm K) : res (sbm K) :=
    fold_left (fun x i => do a <- x; do B <- blockAlloc a i i; setBlock a i i (addDiag lambda B)) (seq 0 (length (s_rbi A))) (Ok A).
  (* applySchurComplement L8-61; n = invVi.size(). rowBaseOfBlock(m0) L21 reads _rowBlockIndices[m0 - 1] *)
  Definition applySchurComplement (H : sbm K) (rhs : vec K) (lambda : K) (m0 : nat) (lm : bool) (A : sbm K) (n : nat) : res schur :=
    do A0 <- sliceInto H 0 m0 0 m0 A;
    do x <- fold_left (fun x i => do y <- x; schur_step rhs lambda m0 lm y i) (seq 0 n) (Ok (mkSchur H A0 [] rhs));
    do A1 <- (if lm then damp_all lambda (sc_A x) else Ok (sc_A x));
    Ok (mkSchur (sc_H x) A1 (sc_inv x) (sc_b x)).
  (* buildDsi L65-85 *)
  Definition buildDsi (i : nat) (H : sbm K) (rhs : vec K) (m0 : nat) (iV : mat K) (dx : vec K) : vec K :=
    let bi := m0 + i in
    let l := s_rbi H in
    mvmul (bsize l bi) iV
      (fold_left (fun o e => vsub o (mvmul (bsize l (fst e)) (mtr (snd e)) (fun t => dx (base l (fst e) + t))))
                 (above m0 (nth bi (s_cols H) [])) (fun t => rhs (base l bi + t))).
End Schur.
Arguments schur K : clear implicits.
