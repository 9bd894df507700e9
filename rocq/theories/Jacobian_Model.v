(** * Model of the Jacobian containers

    aslam_backend/include/aslam/backend/JacobianContainer.hpp,
    JacobianContainerPrescale.hpp, implementation/JacobianContainerImpl.hpp,
    implementation/JacobianContainerSparseImpl.hpp, implementation/JacobianContainerDenseImpl.hpp.

    Debug-only assertions (SM_ASSERT_*_DBG) guard against undefined behaviour in release
    builds; their failure is modelled as [UB]. *)
From Coq Require Import Arith Lia List ZArith Bool.
From Verif Require Import Lib_Ring Lib_Res MatrixStack_Model DesignVar_Base.
Import ListNotations.

Section Model.
Context {K : Type} {R : CRing K}.
Notation dvar := (dvar K).

(** Eigen expressions on sized matrices *)
Definition dmul (A B : @dmat K) : @dmat K := mkD (d_rows A) (d_cols B) (mmul (d_cols A) (d_at A) (d_at B)).
(* same code: Eigen *)
Definition dadd (A B : @dmat K) : @dmat K := mkD (d_rows A) (d_cols A) (madd (d_at A) (d_at B)).
(* same code: Eigen *)
Definition dscale (a : K) (A : @dmat K) : @dmat K := mkD (d_rows A) (d_cols A) (mscale a (d_at A)).
(* same code: Eigen *)
Definition didentity (r c : nat) : @dmat K := mkD r c mid.
(* same code: Eigen *)
Definition dzero (r c : nat) : @dmat K := mkD r c mzero.
(* same code: Eigen *)
Definition same_dims (A B : @dmat K) : bool := (d_rows A =? d_rows B) && (d_cols A =? d_cols B).

(** ** JacobianContainer: a chain-rule stack plus some store of Jacobians.
    [store] is what the concrete container keeps, [addJ] its addJacobian(). *)
Section Container.
Variable store : Type.
Variable addJ : store -> dvar -> @dmat K -> res store.

(* JacobianContainer.hpp L42 (it is a MatrixStack), JacobianContainerSparse.hpp L136 *)
Record container := mkJC { jc_stack : @mstack K; jc_store : store }.

(** apply(mat), JacobianContainer.hpp (class JacobianContainer, apply): with an empty chain the
    number of rows must match (SM_ASSERT_EQ, always checked), then pushWithGuard(mat). *)
Definition jc_apply (al : nat) (c : container) (m : @dmat K) : res container :=
  if (match ms_headers (jc_stack c) with [] => negb (ms_rows (jc_stack c) =? d_rows m) | _ => false end)
  then Throw
  else do s <- ms_push al (jc_stack c) m; Ok (mkJC s (jc_store c)).

(** apply(scalar), JacobianContainer.hpp *)
Definition jc_apply_scalar (al : nat) (c : container) (a : K) : res container :=
  do s <- ms_push_scalar al (jc_stack c) a; Ok (mkJC s (jc_store c)).

(** destruction of the JacobianContainerChainRuleApplied returned by apply: pops once *)
(* JacobianContainer.hpp L25-36, MatrixStack.hpp L92-99 *)
Definition jc_end (c : container) : res container :=
  do s <- ms_pop (jc_stack c); Ok (mkJC s (jc_store c)).

(** JacobianContainerImplHelper::addImpl, JacobianContainerImpl.hpp L26-46 (no identity) *)
Definition jc_add (c : container) (d : dvar) (J : @dmat K) : res container :=
  if negb (d_cols J =? dv_dim d) then UB else
  if negb (dv_active d) then Ok c else
  if (dv_block d <? 0)%Z then UB else
  match ms_headers (jc_stack c) with
  | [] => if negb (ms_rows (jc_stack c) =? d_rows J) then UB
          else do st <- addJ (jc_store c) d J; Ok (mkJC (jc_stack c) st)
  | _ => do CR <- ms_top (jc_stack c);
         if negb (d_cols CR =? d_rows J) then UB
         else do st <- addJ (jc_store c) d (dmul CR J); Ok (mkJC (jc_stack c) st)
  end.

(** addImpl<true> called from addImpl(jc, dv), JacobianContainerImpl.hpp L48-53 and L20-23:
    the Jacobian is Identity(rows, dim) when the chain is empty; otherwise the chain-rule matrix
    itself is added, its size is not compared with the design variable. *)
Definition jc_add_id (c : container) (d : dvar) : res container :=
  if negb (dv_active d) then Ok c else
  if (dv_block d <? 0)%Z then UB else
  match ms_headers (jc_stack c) with
  | [] => do st <- addJ (jc_store c) d (didentity (ms_rows (jc_stack c)) (dv_dim d));
          Ok (mkJC (jc_stack c) st)
  | _ => do CR <- ms_top (jc_stack c);
         do st <- addJ (jc_store c) d CR; Ok (mkJC (jc_stack c) st)
  end.

(** What an expression does to a container while it evaluates its Jacobians. *)
(* in the model only: JacobianContainer.hpp L59-110 as data *)
Inductive cop :=
| CApply (m : @dmat K) | CApplyS (a : K) | CEnd
| CAdd (d : dvar) (J : @dmat K) | CAddId (d : dvar).

(* in the model only: dispatch *)
Definition jc_step (al : nat) (c : container) (o : cop) : res container :=
  match o with
  | CApply m => jc_apply al c m
  | CApplyS a => jc_apply_scalar al c a
  | CEnd => jc_end c
  | CAdd d J => jc_add c d J
  | CAddId d => jc_add_id c d
  end.
(* in the model only: a sequence of calls *)
Fixpoint jc_run (al : nat) (c : container) (ops : list cop) : res container :=
  match ops with
  | [] => Ok c
  | o :: t => do c' <- jc_step al c o; jc_run al c' t
  end.
End Container.
Arguments jc_stack {store}. Arguments jc_store {store}. Arguments mkJC {store}.

(** ** Sparse container: std::map ordered by block index
    (JacobianContainerSparse.hpp map_t, DesignVariable.hpp L29-35 BlockIndexOrdering) *)
Definition jmap := list (dvar * @dmat K).

(** addJacobian, JacobianContainerSparseImpl.hpp L259-270: find by block index, emplace or += *)
Fixpoint sp_addJ (m : jmap) (d : dvar) (J : @dmat K) : res jmap :=
  match m with
  | [] => Ok [(d, J)]
  | (d', M) :: t =>
      if (dv_block d <? dv_block d')%Z then Ok ((d, J) :: m)
      else if (dv_block d' <? dv_block d)%Z then do t' <- sp_addJ t d J; Ok ((d', M) :: t')
      else if negb (dv_id d =? dv_id d') then UB
      else if same_dims M J then Ok ((d', dadd M J) :: t) else UB
  end.

(** constructors: JacobianContainer.hpp (rows, maxNumMatrices = 100, 9 elements per matrix) *)
Definition sp_init (rows : nat) : container jmap := mkJC (ms_init rows 100 9) [].

(** std::map::insert (used with a hint): no effect if the key exists *)
Fixpoint map_insert (m : jmap) (d : dvar) (J : @dmat K) : jmap :=
  match m with
  | [] => [(d, J)]
  | (d', M) :: t =>
      if (dv_block d <? dv_block d')%Z then (d, J) :: m
      else if (dv_block d' <? dv_block d)%Z then (d', M) :: map_insert t d J
      else m
  end.

(** lt->second += X for the element with the key of [d] *)
(* JacobianContainerSparseImpl.hpp, the += of add *)
Fixpoint map_update_add (m : jmap) (d : dvar) (X : @dmat K) : res jmap :=
  match m with
  | [] => UB
  | (d', M) :: t =>
      if (dv_block d' =? dv_block d)%Z
      then if same_dims M X then Ok ((d', dadd M X) :: t) else UB
      else do t' <- map_update_add t d X; Ok ((d', M) :: t')
  end.

(** applyChainRule == nullptr ? J : C*J *)
(* JacobianContainerSparseImpl.hpp, the conditional of add *)
Definition maybe_chain (C : option (@dmat K)) (J : @dmat K) : @dmat K :=
  match C with None => J | Some c => dmul c J end.

(** inner while loop of add(rhs, chain), JacobianContainerSparseImpl.hpp L302-306 *)
Fixpoint ffwd (C : option (@dmat K)) (lkey : Z) (rt : jmap) (m : jmap) : jmap * jmap :=
  match rt with
  | [] => ([], m)
  | (dr, Jr) :: rt' =>
      if (dv_block dr <? lkey)%Z then ffwd C lkey rt' (map_insert m dr (maybe_chain C Jr))
      else (rt, m)
  end.

(** outer for loop L298-313; [lts] are the elements of this container that lt still has to
    visit (elements inserted on the way have smaller keys than lt, so lt never visits them);
    rt is not advanced on a match. *)
Fixpoint merge_loop (C : option (@dmat K)) (lts rt m : jmap) : res (jmap * jmap) :=
  match lts with
  | [] => Ok (rt, m)
  | (dl, _) :: lts' =>
      match rt with
      | [] => Ok (rt, m)
      | _ =>
        let (rt1, m1) := ffwd C (dv_block dl) rt m in
        match rt1 with
        | (dr, Jr) :: _ =>
            if (dv_block dr =? dv_block dl)%Z then
              if negb (dv_id dr =? dv_id dl) then UB
              else do m2 <- map_update_add m1 dl (maybe_chain C Jr); merge_loop C lts' rt1 m2
            else merge_loop C lts' rt1 m1
        | [] => merge_loop C lts' rt1 m1
        end
      end
  end.

(** add(rhs, applyChainRule), L284-318. [rows], [rrows]: _rows of both containers.  The rows are
    compared even when a chain rule is given. *)
Definition sp_merge (rows rrows : nat) (C : option (@dmat K)) (m rhs : jmap) : res jmap :=
  if negb (rows =? rrows) then Throw else
  if match C with Some c => negb (d_cols c =? rrows) | None => false end then Throw else
  do p <- merge_loop C m rhs m;
  Ok (fold_left (fun acc e => map_insert acc (fst e) (maybe_chain C (snd e))) (fst p) (snd p)).

(** applyChainRule(df_dx), L54-63; returns the new row count and map *)
Definition sp_applyChainRule (rows : nat) (m : jmap) (A : @dmat K) : res (nat * jmap) :=
  if negb (d_cols A =? rows) then Throw
  else Ok (d_rows A, map (fun e => (fst e, dmul A (snd e))) m).

(** addTo(jc), L329-333: every pair is added to jc (through jc's chain rule) *)
Definition sp_addTo {store} addJ (m : jmap) (c : container store) : res (container store) :=
  fold_left (fun acc e => do a <- acc; jc_add store addJ a (fst e) (snd e)) m (Ok c).

(** Jacobian(dv), L143-149: throws if the design variable is not in the container *)
Definition sp_Jacobian (m : jmap) (d : dvar) : res (@dmat K) :=
  match find (fun e => (dv_block (fst e) =? dv_block d)%Z) m with
  | Some e => Ok (snd e) | None => Throw end.

(** asDenseMatrix(colBlockIndices), L199-222: block columns end at the given offsets, block b
    starts at colBlockIndices[b-1]; the container's blocks are copied, the rest is zero.
    Only the dense expansion is modelled (SparseBlockMatrix::toDense is modelled elsewhere). *)
Definition block_base (cbi : list nat) (b : Z) : nat :=
  match Z.to_nat b with O => O | S k => nth k cbi O end.
(* same code: L199-222 *)
Definition place (base : nat) (M : @dmat K) (D : mat K) : mat K :=
  fun i j => if (base <=? j) && (j <? base + d_cols M) && (i <? d_rows M)
             then d_at M i (j - base) else D i j.
(* same code: L199-222 *)
Definition sp_asDense (cbi : list nat) (m : jmap) : mat K :=
  fold_left (fun D e => place (block_base cbi (dv_block (fst e))) (snd e) D) m mzero.

(** ** Dense container: JacobianContainerDenseImpl.hpp L15-21, L43-50 *)
Record dense := mkDense { de_rows : nat; de_cols : nat; de_mat : mat K }.
(* same code: JacobianContainerDenseImpl.hpp L15-21, L43-50 *)
Definition de_addJ (s : dense) (d : dvar) (J : @dmat K) : res dense :=
  if negb (de_rows s =? d_rows J) then UB else
  if (dv_col d <? 0)%Z || (Z.of_nat (de_cols s) <? dv_col d + Z.of_nat (d_cols J))%Z then UB else
  let cb := Z.to_nat (dv_col d) in
  Ok (mkDense (de_rows s) (de_cols s)
       (fun i j => if (cb <=? j) && (j <? cb + d_cols J) && (i <? d_rows J)
                   then kadd (de_mat s i j) (d_at J i (j - cb)) else de_mat s i j)).
(* same code: JacobianContainerDenseImpl.hpp L15-21, L43-50 *)
Definition de_init (rows cols : nat) : container dense :=
  mkJC (ms_init rows 100 9) (mkDense rows cols mzero).

(** ** JacobianContainerPrescaled (JacobianContainerPrescale.hpp L16-70): has its own chain-rule
    stack; forwards scalar*(chain*J) to the wrapped container's add(). *)
Definition ps_addJ {store} (addJ : store -> dvar -> @dmat K -> res store) (a : K)
  (inner : container store) (d : dvar) (J : @dmat K) : res (container store) :=
  jc_add store addJ inner d (dscale a J).
(** add(dv, J), L23-28 *)
Definition ps_add {store} addJ (a : K) (c : container (container store)) (d : dvar) (J : @dmat K)
  : res (container (container store)) :=
  match ms_headers (jc_stack c) with
  | [] => do st <- ps_addJ addJ a (jc_store c) d J; Ok (mkJC (jc_stack c) st)
  | _ => do CR <- ms_top (jc_stack c);
         if negb (d_cols CR =? d_rows J) then UB
         else do st <- ps_addJ addJ a (jc_store c) d (dmul CR J); Ok (mkJC (jc_stack c) st)
  end.
(** add(dv), L30-37 *)
Definition ps_add_id {store} addJ (a : K) (c : container (container store)) (d : dvar)
  : res (container (container store)) :=
  match ms_headers (jc_stack c) with
  | [] => do st <- ps_addJ addJ a (jc_store c) d (didentity (ms_rows (jc_stack c)) (dv_dim d));
          Ok (mkJC (jc_stack c) st)
  | _ => do CR <- ms_top (jc_stack c);
         do st <- ps_addJ addJ a (jc_store c) d (dmul CR (didentity (d_cols CR) (dv_dim d)));
         Ok (mkJC (jc_stack c) st)
  end.
(* same code: L30-37 *)
Definition ps_step {store} addJ (al : nat) (a : K) (c : container (container store)) (o : cop)
  : res (container (container store)) :=
  match o with
  | CApply m => jc_apply _ al c m
  | CApplyS s => jc_apply_scalar _ al c s
  | CEnd => jc_end _ c
  | CAdd d J => ps_add addJ a c d J
  | CAddId d => ps_add_id addJ a c d
  end.
(* same code: L30-37 *)
Fixpoint ps_run {store} addJ (al : nat) (a : K) (c : container (container store)) (ops : list cop)
  : res (container (container store)) :=
  match ops with
  | [] => Ok c
  | o :: t => do c' <- ps_step addJ al a c o; ps_run addJ al a c' t
  end.

(** ** evaluateHessian, JacobianContainerSparseImpl.hpp L66-133

    The Hessian is a function from block coordinates to matrices (a missing block counts as zero,
    block(r,c,true) allocates a zero block); [base] is rowBaseOfBlock. *)
(* in the model only: the content of the block matrix *)
Definition hessian := nat -> nat -> mat K.
(* in the model only: block(r, c, true) += M *)
Definition h_add (H : hessian) (r c : nat) (M : mat K) : hessian :=
  fun r' c' => if (r' =? r) && (c' =? c) then madd (H r' c') M else H r' c'.
(* in the model only: Eigen segment(base, len) -= u *)
Definition seg_sub (v : vec K) (base len : nat) (u : vec K) : vec K :=
  fun p => if (base <=? p) && (p <? base + len) then ksub (v p) (u (p - base)) else v p.

(** buildCorrelatedHessianBlock, L66-93 *)
Fixpoint corr_blocks (rows : nat) (J1 : @dmat K) (b1 : nat) (H : hessian) (es : jmap) : hessian :=
  match es with
  | [] => H
  | (d2, J2) :: t =>
      corr_blocks rows J1 b1 (h_add H b1 (Z.to_nat (dv_block d2)) (mmul rows (mtr (d_at J1)) (d_at J2))) t
  end.
(** buildHessianBlock, L95-113 *)
Fixpoint hess_blocks (base : nat -> nat) (rows : nat) (e : vec K) (H : hessian) (rhs : vec K) (es : jmap)
  : hessian * vec K :=
  match es with
  | [] => (H, rhs)
  | (d1, J1) :: t =>
      let b1 := Z.to_nat (dv_block d1) in
      let rhs1 := seg_sub rhs (base b1) (d_cols J1) (mvmul rows (mtr (d_at J1)) e) in
      let H1 := corr_blocks rows J1 b1 H es in
      hess_blocks base rows e H1 rhs1 t
  end.
(** evaluateHessian, L115-133: scale every Jacobian by scaling * sqrtInvR^T, then recurse with
    sqrtInvR^T e. [S] has [rows] rows and [scols] columns. *)
Definition evaluateHessian (base : nat -> nat) (rows scols : nat) (m : jmap) (e : vec K) (S : mat K)
  (H : hessian) (rhs : vec K) : hessian * vec K :=
  let m' := map (fun en => (fst en,
              mkD scols (d_cols (snd en))
                  (mscale (dv_scaling (fst en)) (mmul rows (mtr S) (d_at (snd en)))))) m in
  hess_blocks base scols (mvmul rows (mtr S) e) H rhs m'.

(** ErrorTermFs::buildHessianImplementation, implementation/ErrorTerm.hpp L104-116: calls
    evaluateHessian(error, sqrtWeight * sqrtInvR, ...). *)
Record term := mkTerm { t_rows : nat; t_jac : jmap; t_e : vec K; t_S : mat K; t_sw : K }.
(* same code: implementation/ErrorTerm.hpp L104-116 *)
Definition buildHessian (base : nat -> nat) (t : term) (Hr : hessian * vec K) : hessian * vec K :=
  evaluateHessian base (t_rows t) (t_rows t) (t_jac t) (t_e t) (mscale (t_sw t) (t_S t)) (fst Hr) (snd Hr).
(** the loop over error terms, BlockCholeskyLinearSystemSolver.cpp buildSystem *)
Definition buildAll (base : nat -> nat) (ts : list term) (Hr : hessian * vec K) : hessian * vec K :=
  fold_left (fun acc t => buildHessian base t acc) ts Hr.

(** An error term as buildHessianImplementation sees it: the Jacobian calls it makes on a fresh
    JacobianContainerSparse(C), its error, _sqrtInvR and the square root of its M-estimator weight
    (the weight function itself is modelled in MEstimator_Model.v). *)
(* ErrorTerm.hpp L40-201 *)
Record eterm_code := mkETC { ec_dim : nat; ec_calls : list cop; ec_error : vec K; ec_sqrtInvR : mat K; ec_sqrtw : K }.
(* same code: ErrorTerm.hpp L40-201 *)
Definition evalTerm (al : nat) (t : eterm_code) : res term :=
  do c <- jc_run jmap sp_addJ al (sp_init (ec_dim t)) (ec_calls t);
  Ok (mkTerm (ec_dim t) (jc_store c) (ec_error t) (ec_sqrtInvR t) (ec_sqrtw t)).
(** buildSystem, BlockCholeskyLinearSystemSolver.cpp L60-74: H.clear(false) makes all blocks zero,
    rhs.setZero(), then the terms one after the other. *)
Fixpoint buildTerms (base : nat -> nat) (al : nat) (ts : list eterm_code) (Hr : hessian * vec K)
  : res (hessian * vec K) :=
  match ts with
  | [] => Ok Hr
  | t :: ts' => do t' <- evalTerm al t; buildTerms base al ts' (buildHessian base t' Hr)
  end.
(* same code: BlockCholeskyLinearSystemSolver.cpp L60-74 *)
Definition buildSystem (base : nat -> nat) (al : nat) (ts : list eterm_code) : res (hessian * vec K) :=
  buildTerms base al ts (fun _ _ => mzero, fun _ => k0).
End Model.
Arguments jc_stack {K store}. Arguments jc_store {K store}. Arguments mkJC {K store}.
