(** * Specifications for the block linear solvers *)
From Coq Require Import Arith Lia List Bool Sorting.Sorted.
From Verif Require Import Lib_Ring Lib_Res CCM_Model SBM_Model SBM_Spec Cov_Model Cov_Spec BSolver_Model.
Import ListNotations.

Section Spec.
  Context {K : Type} {R : CRing K}.
  (* the matrices that are handed to a solver: square, at least one block, no empty blocks, blocks on and above the diagonal only *)
  Definition proper (m : sbm K) : Prop := well_formed m /\ s_cbi m = s_rbi m /\ s_rbi m <> [] /\ positive (s_rbi m) /\ upper_only m.
  Definition dim (m : sbm K) : nat := total (s_rbi m).
  (* the same non-zero pattern: layout and stored blocks *)
  Definition same_pattern (m m' : sbm K) : Prop := s_rbi m = s_rbi m' /\ s_cbi m = s_cbi m' /\ map (map fst) (s_cols m) = map (map fst) (s_cols m').
  Definition unchanged (last : option (sbm K)) (m : sbm K) : Prop := match last with None => True | Some m0 => same_pattern m0 m end.
  (* linear_solver.h L43-48: the pattern changes only after init *)
  Fixpoint obeys (last : option (sbm K)) (l : list (call K)) : Prop :=
    match l with
    | [] => True
    | Init :: l' => obeys None l'
    | SetOrder _ :: l' => obeys last l'
    | Solve m _ _ :: l' | Blocks m _ :: l' | Pattern m _ :: l' => unchanged last m /\ obeys (Some m) l'
    end.
  (* the arguments of the calls *)
  Definition call_ok (o : call K) : Prop :=
    match o with
    | Init | SetOrder _ => True
    | Solve m _ _ => proper m
    | Blocks m l => proper m /\ fits_int (dim m) /\ match l with None => True | Some l => length l = length (s_rbi m) end
    | Pattern m l => proper m /\ fits_int (dim m) /\ forall b, In b l -> fst b < length (s_rbi m) /\ snd b < length (s_rbi m)
    end.

  Definition solves (n : nat) (A : mat K) (b x : vec K) : Prop := forall i, i < n -> mvmul n A x i = b i.
  Definition inverse_of (n : nat) (A Ai : mat K) : Prop := meq n n (mmul n A Ai) mid.
  (* what the user is promised for one call; pd is the class of matrices on which the factorisation of the library always succeeds *)
  Definition promise (pd : nat -> mat K -> Prop) (o : call K) (a : answer K) : Prop :=
    match o, a with
    | Init, Done | SetOrder _, Done => True
    | Solve m x b, Solved ok x' => forall A, stands_for m A ->
        (ok = true -> solves (dim m) (symm A) b x' /\ forall k, dim m <= k -> x' k = x k) /\
        (ok = false -> x' = x /\ ~ pd (dim m) (symm A))
    | Blocks m _, GotBlocks ok out => forall A Ai, stands_for m A -> inverse_of (dim m) (symm A) Ai ->
        (ok = true -> exists l, out = Some l /\ length l = length (s_rbi m) /\
           forall b rr cc z, b < length (s_rbi m) -> rr < bsize (s_rbi m) b -> cc < bsize (s_rbi m) b ->
             nth b l z (rr * bsize (s_rbi m) b + cc) = Ai (base (s_rbi m) b + rr) (base (s_rbi m) b + cc)) /\
        (ok = false -> ~ pd (dim m) (symm A))
    | Pattern m bi, GotPattern ok out => forall A Ai, stands_for m A -> inverse_of (dim m) (symm A) Ai ->
        (ok = true -> exists s, out = Some s /\ well_formed s /\ s_rbi s = s_rbi m /\ s_cbi s = s_rbi m /\
           (forall r c, get s r c <> None <-> In (r, c) bi) /\
           forall r c i j, In (r, c) bi -> i < bsize (s_rbi m) r -> j < bsize (s_rbi m) c -> blk s r c i j = Ai (base (s_rbi m) r + i) (base (s_rbi m) c + j)) /\
        (ok = false -> ~ pd (dim m) (symm A))
    | _, _ => False
    end.

  (** ** what is required of the libraries *)
  (* the pattern of an upper triangular matrix in compressed columns *)
  Definition upper_pattern (n : nat) (p i : list nat) : Prop := exists (x : list K) (M : mat K), is_ccs n n (triu M) (p, i, x).
  (* the same for the blocks, without values *)
  Definition block_pattern (n : nat) (Ap Aii : list nat) : Prop :=
    length Ap = n + 1 /\ nth 0 Ap 0 = 0 /\ nth n Ap 0 = length Aii /\
    forall i, i < n -> nth i Ap 0 <= nth (S i) Ap 0 <= length Aii /\
      let rows := firstn (nth (S i) Ap 0 - nth i Ap 0) (skipn (nth i Ap 0) Aii) in StronglySorted lt rows /\ forall r, In r rows -> r <= i.
  Definition list_perm (n : nat) (q : list nat) : Prop := length q = n /\ is_perm n (fun k => nth k q 0).
  (* q undoes p *)
  Definition inverse_perm (n : nat) (p q : list nat) : Prop := length q = n /\ forall k, k < n -> nth (nth k p 0) q 0 = k.

  Section Lib.
    Variables (Sym Fac : Type).
    Variable analyze : nat -> list nat -> list nat -> option Sym.
    Variable analyze_p : list nat -> nat -> list nat -> list nat -> option Sym.
    Variable amd : nat -> list nat -> list nat -> option (list nat).
    Variable factorize : Sym -> nat -> list nat -> list nat -> list K -> outcome Fac.
    Variable csolve : Fac -> vec K -> vec K.
    Variable change_factor : Fac -> option (list nat * list nat * list nat * list K).
    Variable recip : K -> K.
    Variable pd : nat -> mat K -> Prop.
    Variable sym_for : Sym -> nat -> list nat -> list nat -> Prop.
    (* CHOLMOD: a pattern can be analysed, also with a given ordering; AMD delivers a permutation; with an analysis of this very pattern the
       factorisation either finds the matrix not positive definite or delivers a factor that solves and can be turned into L L^T *)
    Record cholmod_good : Prop := {
      g_analyze : forall n p i, upper_pattern n p i -> exists y, analyze n p i = Some y /\ sym_for y n p i;
      g_analyze_p : forall q n p i, list_perm n q -> upper_pattern n p i -> exists y, analyze_p q n p i = Some y /\ sym_for y n p i;
      g_amd : forall n Ap Aii, block_pattern n Ap Aii -> exists P, amd n Ap Aii = Some P /\ list_perm n P;
      g_factorize : forall y n p i x M, sym_for y n p i -> is_ccs n n (triu M) (p, i, x) ->
        match factorize y n p i x with
        | Fails => False
        | NotPosDef => ~ pd n (symm M)
        | Factor f => (forall b, solves n (symm M) b (csolve f b)) /\
            match change_factor f with
            | None => ~ pd n (symm M)
            | Some (perm, Lp, Li, Lx) => list_perm n perm /\ (exists Ai, inverse_of n (symm M) Ai) /\ exists L, factor n Lp Li Lx L /\ (forall r, r < n -> kmul (recip (L r r)) (L r r) = k1) /\
                forall q, inverse_perm n perm q -> factorises n (Some q) L (symm M)
            end
        end }.
    Variables (QSym : Type).
    Variable qr_symbolic : nat -> nat -> list nat -> list nat -> option QSym.
    Variable qr_solve : option QSym -> nat -> nat -> list nat -> list nat -> list K -> vec K -> option (vec K).
    Variable qsym_for : QSym -> nat -> list nat -> list nat -> Prop.
    (* the class of regular matrices, on which the library always succeeds *)
    Variable reg : nat -> mat K -> Prop.
    (* SuiteSparseQR: with an analysis of this very pattern a regular system is solved *)
    Record qr_good : Prop := {
      g_symbolic : forall n p i x M, is_ccs n n M (p, i, x) -> exists y, qr_symbolic n n p i = Some y /\ qsym_for y n p i;
      g_qsolve : forall y n p i x M b, qsym_for y n p i -> is_ccs n n M (p, i, x) -> reg n M ->
        exists sol, qr_solve (Some y) n n p i x b = Some sol /\ solves n M b sol }.
    Variable ldlt : nat -> mat K -> vec K -> vec K.
    (* Eigen: the LDLT decomposition of a matrix of the class pd *)
    Definition ldlt_good : Prop := forall n M b, pd n M -> solves n M b (ldlt n M b).
  End Lib.

  Fixpoint q_obeys (last : option (sbm K)) (l : list (qcall K)) : Prop :=
    match l with
    | [] => True
    | QInit :: l' => q_obeys None l'
    | QSolve m _ _ :: l' => unchanged last m /\ q_obeys (Some m) l'
    end.
  Definition qcall_ok (o : qcall K) : Prop := match o with QInit => True | QSolve m _ _ => proper m end.
  Definition q_promise (reg : nat -> mat K -> Prop) (o : qcall K) (a : option (bool * vec K)) : Prop :=
    match o, a with
    | QInit, None => True
    | QSolve m x b, Some (ok, x') => forall A, stands_for m A -> reg (dim m) (symm A) -> ok = true /\ solves (dim m) (symm A) b x' /\ forall k, dim m <= k -> x' k = x k
    | _, _ => False
    end.
End Spec.
