(** * Model of isFinite: Jacobian containers with numbers that need not be finite

    aslam_backend/include/aslam/backend/implementation/JacobianContainerImpl.hpp (I below), JacobianContainerSparseImpl.hpp (S), JacobianContainerDenseImpl.hpp (D), MatrixStack.hpp (M), JacobianContainer.hpp (J),
    aslam_backend_expressions/include/aslam/backend/util/ExpressionUtils.hpp (U).
    Jacobian_Model has the same containers over rings; here nothing is assumed of the arithmetic, so that it may be that of doubles with infinities and NaN.
    Simplification: the stack is the list of its running products (its memory is in MatrixStack_Model, C01 and C02). Products are summed from left to right; the theorems do not depend on the order. *)
From Coq Require Import List Arith Bool ZArith.
From Verif Require Import Lib_Res.
Import ListNotations.

Section Fin.
  Variable F : Type.
  Variables (fz fo : F) (fadd fmul : F -> F -> F) (fin : F -> bool).

  (* Eigen matrices *)
  Record fm := mkFm { rows : nat; cols : nat; at_ : nat -> nat -> F }.
  (* a sum of products, as in the matrix product I L16 *)
  Fixpoint dot (n : nat) (f : nat -> F) : F := match n with 0 => fz | 1 => f 0 | S n' => fadd (dot n' f) (f n') end.
  (* m1*m2, I L16 *)
  Definition fmm (A B : fm) : fm := mkFm (rows A) (cols B) (fun i j => dot (cols A) (fun k => fmul (at_ A i k) (at_ B k j))).
  (* noalias() += jacobian, S L268, D L49 *)
  Definition fmadd (A B : fm) : fm := mkFm (rows A) (cols A) (fun i j => fadd (at_ A i j) (at_ B i j)).
  (* Identity(rows, minimalDimensions), I L51 *)
  Definition fid (r c : nat) : fm := mkFm r c (fun i j => if i =? j then fo else fz).
  (* top * scalar, M L148-160 *)
  Definition fscale (A : fm) (a : F) : fm := mkFm (rows A) (cols A) (fun i j => fmul (at_ A i j) a).
  (* allFinite(): S L140, D L26 *)
  Definition allFinite (A : fm) : bool := forallb (fun i => forallb (fun j => fin (at_ A i j)) (seq 0 (cols A))) (seq 0 (rows A)).

  (* what of a design variable is used: isActive, blockIndex, columnBase, minimalDimensions, and which object it is (DesignVariable.hpp) *)
  Record dv := mkDv { v_id : nat; v_active : bool; v_block : Z; v_col : Z; v_dim : nat }.

  Section Container.
    Variable store : Type.
    Variable addJ : store -> dv -> fm -> res store.
    (* rows of the container, running products with the newest first, the Jacobians *)
    (* JacobianContainer.hpp L53, L124 *)
    Record container := mkC { c_rows : nat; c_stack : list fm; c_store : store }.
    (* apply(mat), J L76-84 and M push(matrix): the product with the top *)
    Definition capply (c : container) (m : fm) : res container :=
      match c_stack c with
      | [] => if rows m =? c_rows c then Ok (mkC (c_rows c) [m] (c_store c)) else Throw
      | t :: _ => if rows m =? cols t then Ok (mkC (c_rows c) (fmm t m :: c_stack c) (c_store c)) else UB
      end.
    (* apply(scalar), J L85-89 and M L148-160 *)
    Definition capplyS (c : container) (a : F) : res container :=
      Ok (mkC (c_rows c) (fscale match c_stack c with [] => fid (c_rows c) (c_rows c) | t :: _ => t end a :: c_stack c) (c_store c)).
    (* destruction of the guard returned by apply, J L24-34 *)
    Definition cend (c : container) : res container := match c_stack c with [] => UB | _ :: l => Ok (mkC (c_rows c) l (c_store c)) end.
    (* addImpl<false>, I L26-46; debug assertions guard against undefined behaviour *)
    Definition cadd (c : container) (d : dv) (A : fm) : res container :=
      if negb (cols A =? v_dim d) then UB else if negb (v_active d) then Ok c else if (v_block d <? 0)%Z then UB else
      match c_stack c with
      | [] => if rows A =? c_rows c then do s <- addJ (c_store c) d A; Ok (mkC (c_rows c) [] s) else UB
      | t :: _ => if rows A =? cols t then do s <- addJ (c_store c) d (fmm t A); Ok (mkC (c_rows c) (c_stack c) s) else UB
      end.
    (* addImpl of the identity, I L48-53 and L20-24 *)
    Definition caddId (c : container) (d : dv) : res container :=
      if negb (v_active d) then Ok c else if (v_block d <? 0)%Z then UB else
      do s <- addJ (c_store c) d match c_stack c with [] => fid (c_rows c) (v_dim d) | t :: _ => t end; Ok (mkC (c_rows c) (c_stack c) s).
    (* what expressions do to a container *)
    (* same code: I L48-53 and L20-24 *)
    Inductive cop := Apply (m : fm) | ApplyS (a : F) | End_ | Add (d : dv) (A : fm) | AddId (d : dv).
    (* one call *)
    (* same code: I L48-53 and L20-24 *)
    Definition cstep (c : container) (o : cop) : res container :=
      match o with Apply m => capply c m | ApplyS a => capplyS c a | End_ => cend c | Add d A => cadd c d A | AddId d => caddId c d end.
    (* a sequence of calls *)
    (* same code: I L48-53 and L20-24 *)
    Fixpoint crun (c : container) (l : list cop) : res container := match l with [] => Ok c | o :: l' => do c' <- cstep c o; crun c' l' end.
  End Container.

  (* the sparse container: a map ordered by block index *)
  (* JacobianContainerSparse.hpp L136 *)
  Definition smap := list (dv * fm).
  (* addJacobian S L258-270 *)
  Fixpoint s_add (m : smap) (d : dv) (A : fm) : res smap :=
    match m with
    | [] => Ok [(d, A)]
    | (d', M) :: t =>
        if (v_block d <? v_block d')%Z then Ok ((d, A) :: m)
        else if (v_block d' <? v_block d)%Z then do t' <- s_add t d A; Ok ((d', M) :: t')
        else if negb (v_id d =? v_id d') then UB
        else if (rows M =? rows A) && (cols M =? cols A) then Ok ((d', fmadd M A) :: t) else UB
    end.
  (* _jacobianMap.find: S L138 *)
  Fixpoint s_find (m : smap) (d : dv) : option fm := match m with [] => None | (d', M) :: t => if (v_block d =? v_block d')%Z then Some M else s_find t d end.
  (* isFinite S L136-141 *)
  Definition s_isFinite (m : smap) (d : dv) : res bool := match s_find m d with None => Throw | Some M => Ok (allFinite M) end.
  (* a new container *)
  (* same code: S L136-141 *)
  Definition s_init (r : nat) : container smap := mkC smap r [] [].

  (* the dense container: addJacobian D L43-50 *)
  Definition d_add (m : fm) (d : dv) (A : fm) : res fm :=
    if negb (rows m =? rows A) then UB else if (v_col d <? 0)%Z || (Z.of_nat (cols m) <? v_col d + Z.of_nat (cols A))%Z then UB else
    let cb := Z.to_nat (v_col d) in Ok (mkFm (rows m) (cols m) (fun i j => if (cb <=? j) && (j <? cb + cols A) then fadd (at_ m i j) (at_ A i (j - cb)) else at_ m i j)).
  (* Jacobian D L30-34 *)
  Definition d_block (m : fm) (d : dv) : res fm :=
    if (v_col d <? 0)%Z || (Z.of_nat (cols m) - Z.of_nat (v_dim d) <? v_col d)%Z then Throw else Ok (mkFm (rows m) (v_dim d) (fun i j => at_ m i (Z.to_nat (v_col d) + j))).
  (* isFinite D L23-27 *)
  Definition d_isFinite (m : fm) (d : dv) : res bool := do b <- d_block m d; Ok (allFinite b).
  (* constructor and clear, D L14-20, L38-41 *)
  Definition d_init (r n : nat) : container fm := mkC fm r [] (mkFm r n (fun _ _ => fz)).

  (* utils::isFinite U L17-26: the design variables of the expression in the order of the std::unordered_set *)
  Fixpoint u_isFinite (check : dv -> res bool) (l : list dv) : res bool :=
    match l with [] => Ok true | d :: l' => if v_active d then do b <- check d; if negb b then Ok false else u_isFinite check l' else u_isFinite check l' end.
End Fin.
Arguments mkFm {F}. Arguments rows {F}. Arguments cols {F}. Arguments at_ {F}. Arguments mkC {F store}. Arguments c_rows {F store}. Arguments c_stack {F store}. Arguments c_store {F store}.
Arguments Apply {F}. Arguments ApplyS {F}. Arguments End_ {F}. Arguments Add {F}. Arguments AddId {F}.
