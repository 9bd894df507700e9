(** * Marginal covariances from a Cholesky factor

    sparse_block_matrix/src/marginal_covariance_cholesky.cpp (line numbers without file refer to it; "h" is
    sparse_block_matrix/include/sparse_block_matrix/marginal_covariance_cholesky.h). The reciprocal and std::sort are parameters. Reading outside of
    an array and overflow of the int index are undefined. The blocks written by the first computeCovariance are total functions from positions to values:
    that the caller's memory is large enough is not modelled. Asserts are left out (release build). *)
From Coq Require Import Arith Lia List ZArith Bool.
From Verif Require Import Lib_Ring Lib_Res SBM_Model.
Import ListNotations.

Section Cov.
  Context {K : Type} {R : CRing K}.
  (* 1.0 / x; std::sort with operator< L29-32 *)
  Variable recip : K -> K.
  Variable sort : list (nat * nat) -> list (nat * nat).

  (* in the model only: helper *)
  Definition rd {A} (l : list A) (i : nat) : res A := match nth_error l i with Some x => Ok x | None => UB end.
  (* h L69-76: _n, _Ap, _Ai, _Ax, _perm, _diag *)
  Record mcc := mkMcc { m_n : nat; m_Ap : list nat; m_Ai : list nat; m_Ax : list K; m_perm : option (list nat); m_diag : list K }.
  (* h L36: LookupMap; an unordered_map, here the list of its entries, the latest first *)
  Definition memo := list (Z * K).
  (* in the model only: helper *)
  Fixpoint lookup (i : Z) (m : memo) : option K := match m with [] => None | (k, v) :: m' => if Z.eqb i k then Some v else lookup i m' end.

  (* in the model only: helper *)
  Fixpoint mapM {A B} (f : A -> res B) (l : list A) : res (list B) :=
    match l with [] => Ok [] | x :: l' => do y <- f x; do ys <- mapM f l'; Ok (y :: ys) end.
  (* setCholeskyFactor L44-59 *)
  Definition setCholeskyFactor (n : nat) (Lp Li : list nat) (Lx : list K) (permInv : option (list nat)) : res mcc :=
    do d <- mapM (fun r => do sc <- rd Lp r; do x <- rd Lx sc; Ok (recip x)) (seq 0 n);
    Ok (mkMcc n Lp Li Lx permInv d).
  (* h L79: computeIndex, int *)
  Definition int_max : Z := 2147483647%Z.
  (* same code: L79 *)
  Definition computeIndex (M : mcc) (r c : nat) : res Z :=
    let i := (Z.of_nat r * Z.of_nat (m_n M) + Z.of_nat c)%Z in if Z.leb i int_max then Ok i else UB.
  (* computeEntry L121-150; the recursion is bounded by fuel, running out of it counts as undefined *)
  Fixpoint computeEntry (M : mcc) (fuel : nat) (r c : nat) (m : memo) : res (K * memo) :=
    match fuel with
    | O => UB
    | S f =>
      do idx <- computeIndex M r c;
      match lookup idx m with
      | Some v => Ok (v, m)
      | None =>
        do sc <- rd (m_Ap M) r;
        do ec <- rd (m_Ap M) (r + 1);
        do sm <- fold_left (fun x j => do sm <- x;
                   do rr <- rd (m_Ai M) j;
                   do vm <- (if rr <? c then computeEntry M f rr c (snd sm) else computeEntry M f c rr (snd sm));
                   do a <- rd (m_Ax M) j;
                   Ok (kadd (fst sm) (kmul (fst vm) a), snd vm)) (seq (sc + 1) (ec - (sc + 1))) (Ok (k0, m));
        do d <- rd (m_diag M) r;
        let result := if r =? c then kmul d (ksub d (fst sm)) else kmul (kopp (fst sm)) d in
        Ok (result, (idx, result) :: snd sm)
      end
    end.
  (* in the model only: helper *)
  Definition enough (M : mcc) : nat := 2 * m_n M + 1.

  (* L162-165: permuted position, swapped into the upper triangle *)
  Definition permuted_pos (M : mcc) (rr cc : nat) : res (nat * nat) :=
    match m_perm M with
    | None => Ok (if cc <? rr then (cc, rr) else (rr, cc))
    | Some p => do r <- rd p rr; do c <- rd p cc; Ok (if c <? r then (c, r) else (r, c))
    end.
  (* L170-177, L236-243: sort the requests and compute them, starting with an empty map *)
  Definition computeAll (M : mcc) (l : list (nat * nat)) : res memo :=
    fold_left (fun x e => do m <- x; do vm <- computeEntry M (enough M) (fst e) (snd e) m; Ok (snd vm)) (sort l) (Ok []).
  (* L189-195, L258-264: the value of an entry that was computed; dereferencing end() is undefined *)
  Definition fetch (M : mcc) (m : memo) (rr cc : nat) : res K :=
    do e <- permuted_pos M rr cc; do idx <- computeIndex M (fst e) (snd e);
    match lookup idx m with Some v => Ok v | None => UB end.

  (* the loops over the upper triangle of a block L160-161, L187-188 *)
  Definition triangle (vdim : nat) : list (nat * nat) := flat_map (fun rr => map (fun cc => (rr, cc)) (seq rr (vdim - rr))) (seq 0 vdim).
  (* the blocks: base and size *)
  (* same code: L160-161, L187-188 *)
  Fixpoint blocks_of (base : nat) (l : list nat) : list (nat * nat) := match l with [] => [] | nb :: l' => (base, nb - base) :: blocks_of nb l' end.
  (* in the model only: helper *)
  Definition set_at (f : nat -> K) (p : nat) (v : K) : nat -> K := fun q => if q =? p then v else f q.
  (* L186-199: one block; row-major *)
  Definition write_cov (M : mcc) (m : memo) (bv : nat * nat) (cov : nat -> K) : res (nat -> K) :=
    fold_left (fun x e => do cov <- x;
      do v <- fetch M m (fst bv + fst e) (fst bv + snd e);
      let cov := set_at cov (fst e * snd bv + snd e) v in
      Ok (if fst e =? snd e then cov else set_at cov (snd e * snd bv + fst e) v)) (triangle (snd bv)) (Ok cov).
  (* computeCovariance L152-201 *)
  Definition computeCovariance (M : mcc) (covBlocks : list (nat -> K)) (blockIndices : list nat) : res (list (nat -> K)) :=
    let bs := blocks_of 0 blockIndices in
    do req <- mapM (fun p => permuted_pos M (fst p) (snd p)) (flat_map (fun bv => map (fun e => (fst bv + fst e, fst bv + snd e)) (triangle (snd bv))) bs);
    do m <- computeAll M req;
    mapM (fun bc => write_cov M m (fst bc) (snd bc)) (combine bs covBlocks).

  (* the loops over a whole block L222-223, L255-256 *)
  Definition square (rows cols : nat) : list (nat * nat) := flat_map (fun i => map (fun j => (i, j)) (seq 0 cols)) (seq 0 rows).
  (* same code: L222-223, L255-256 *)
  Definition set_elem (B : mat K) (i j : nat) (v : K) : mat K := fun p q => if (p =? i) && (q =? j) then v else B p q.
  (* computeCovariance L204-268: the requested blocks of the inverse *)
  Definition computeCovarianceBlocks (M : mcc) (rowBlockIndices : list nat) (blockIndices : list (nat * nat)) : res (sbm K) :=
    match rowBlockIndices with
    | [] => UB (* &rowBlockIndices[0] *)
    | _ =>
      let l := rowBlockIndices in
      do spinv <- fold_left (fun x b => do s <- x; do B <- blockAlloc s (fst b) (snd b); setBlock s (fst b) (snd b) B) blockIndices (Ok (fresh l l));
      do req <- mapM (fun p => permuted_pos M (fst p) (snd p))
                     (flat_map (fun b => map (fun e => (base l (fst b) + fst e, base l (snd b) + snd e)) (square (bsize l (fst b)) (bsize l (snd b)))) blockIndices);
      do m <- computeAll M req;
      fold_left (fun x b => do s <- x;
        do B <- blockAlloc s (fst b) (snd b);
        do B' <- fold_left (fun x e => do B <- x; do v <- fetch M m (base l (fst b) + fst e) (base l (snd b) + snd e); Ok (set_elem B (fst e) (snd e) v))
                           (square (bsize l (fst b)) (bsize l (snd b))) (Ok B);
        setBlock s (fst b) (snd b) B') blockIndices (Ok spinv)
    end.
End Cov.
Arguments mcc K : clear implicits. Arguments memo K : clear implicits.
