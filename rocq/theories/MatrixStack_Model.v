(** * Model of aslam_backend/include/aslam/backend/MatrixStack.hpp

    Scalars are elements of a commutative ring (double in the code, rounding not modelled).
    [size_t] quantities are unbounded naturals (a buffer of 2^64 doubles cannot exist);
    the 16- and 32-bit header fields and the [int] product are modelled with their
    machine widths. *)
From Coq Require Import Arith Lia List NArith ZArith.
From Verif Require Import Lib_Ring Lib_Res.
Import ListNotations.

(** uint16_t / uint32_t conversion of a non-negative value (MatrixStack.hpp L55-64: the
    constructor arguments are int / size_t, the members uint16_t / uint32_t). *)
Definition wrap16 (x : nat) : nat := N.to_nat (N.modulo (N.of_nat x) 65536).
(* same code: MatrixStack.hpp L55-64 *)
Definition wrap32 (x : nat) : nat := N.to_nat (N.modulo (N.of_nat x) 4294967296).
(** does a non-negative value fit a signed 32-bit int? *)
(* same code: MatrixStack.hpp L55-64 *)
Definition fits_int (x : nat) : bool := N.ltb (N.of_nat x) 2147483648.

(** struct Header, MatrixStack.hpp L55-64 *)
Record header := mkHeader { h_cols : nat; h_idx : nat }.

Section Model.
Context {K : Type} {R : CRing K}.

(** data members of MatrixStack, L249-253; [ms_headers] lists the top of the stack first
    (the code keeps it last in a vector). [ms_data] is the content of the vector. *)
Record mstack := mkMS {
  ms_rows : nat;
  ms_data : list K;
  ms_headers : list header;
  ms_size : nat
}.

(** constructor, L114-118: buffer of maxNumMatrices*estimatedNumElementsPerMatrix
    value-initialised doubles, no headers. *)
Definition ms_init (numRows maxNum est : nat) : mstack :=
  mkMS (wrap16 numRows) (repeat k0 (maxNum * est)) [] 0.

(** numMatrices, L124 *)
Definition ms_num (s : mstack) : nat := length (ms_headers s).

(** A matrix argument or view: number of rows, of columns, coefficients. *)
(* in the model only: an Eigen matrix or map *)
Record dmat := mkD { d_rows : nat; d_cols : nat; d_at : mat K }.

(** Column-major Eigen::Map over the buffer (L190, L198, L230): coefficient (i,j) is at
    dataIndex + i + j*rows.  A view that does not lie inside the buffer is undefined
    behaviour. *)
Definition view (s : mstack) (h : header) : res dmat :=
  if (h_idx h + ms_rows s * h_cols h <=? length (ms_data s))%nat
  then Ok (mkD (ms_rows s) (h_cols h) (fun i j => nth (h_idx h + (i + j * ms_rows s)) (ms_data s) k0))
  else UB.

(** top(), L186-199: throws on an empty stack *)
Definition ms_top (s : mstack) : res dmat :=
  match ms_headers s with [] => Throw | h :: _ => view s h end.

(** matrix(i), L226-231: throws when i is out of range; i counts from the bottom. *)
Definition ms_matrix (s : mstack) (i : nat) : res dmat :=
  if (i <? ms_num s)%nat
  then match nth_error (ms_headers s) (ms_num s - 1 - i) with
       | Some h => view s h
       | None => UB
       end
  else Throw.

(** allocate(cols), L204-223. [al] is DataAlignment/sizeof(double). The product
    numRows()*cols is an int product: undefined when it does not fit. *)
Definition ms_allocate (al : nat) (s : mstack) (cols : nat) : res mstack :=
  let start0 := ms_size s in
  let start := if (start0 mod al =? 0)%nat then start0 else (start0 + (al - start0 mod al))%nat in
  if negb (fits_int (ms_rows s * cols)) then UB else
  let newSize := (start + ms_rows s * cols)%nat in
  let data :=
    if (length (ms_data s) <? newSize)%nat
    then ms_data s ++ repeat k0 (Nat.max (2 * length (ms_data s)) newSize - length (ms_data s))
    else ms_data s in
  Ok (mkMS (ms_rows s) data (mkHeader (wrap16 cols) (wrap32 start) :: ms_headers s) newSize).

(** Coefficient-wise store loop of an Eigen assignment into a column-major map
    at [idx] with [rows] rows: coefficient number p = i + j*rows is written in turn, and
    its new value may read the buffer in its current (partly overwritten) state - this is
    what [noalias()] permits. *)
Fixpoint store (n rows idx : nat) (f : list K -> nat -> nat -> K) (d : list K) : list K :=
  match n with
  | O => d
  | S p => let d' := store p rows idx f d in
           upd d' (idx + p) (f d' (p mod rows) (p / rows))
  end.

(** assignment to top(), as used in push: the target map has the dimensions of the
    header; assigning an expression with other dimensions to a Map is undefined. *)
(* MatrixStack.hpp, the assignments to top() in push *)
Definition assign_top (s : mstack) (srcCols : nat) (f : list K -> nat -> nat -> K) : res mstack :=
  match ms_headers s with
  | [] => Throw
  | h :: _ =>
      do v <- view s h;
      if (h_cols h =? srcCols)%nat
      then Ok (mkMS (ms_rows s) (store (ms_rows s * h_cols h) (ms_rows s) (h_idx h) f (ms_data s))
                    (ms_headers s) (ms_size s))
      else UB
  end.

(** push(mat), L131-145.  Incompatible dimensions: exception in debug builds
    (SM_ASSERT_EQ_DBG), undefined in release builds; modelled as UB. *)
Definition ms_push (al : nat) (s : mstack) (m : dmat) : res mstack :=
  match ms_headers s with
  | h :: _ =>
      if (h_cols h =? d_rows m)%nat then
        do s1 <- ms_allocate al s (d_cols m);
        do lhs <- ms_matrix s1 (ms_num s1 - 2);
        (* lhs is a view of the buffer: its coefficients are read during the store loop *)
        assign_top s1 (d_cols m)
          (fun d i j => ksum (h_cols h)
             (fun k => kmul (nth (h_idx h + (i + k * ms_rows s1)) d k0) (d_at m k j)))
      else UB
  | [] =>
      if (ms_rows s =? d_rows m)%nat then
        do s1 <- ms_allocate al s (d_cols m);
        assign_top s1 (d_cols m) (fun _ i j => d_at m i j)
      else UB
  end.

(** push(scalar), L148-160 *)
Definition ms_push_scalar (al : nat) (s : mstack) (a : K) : res mstack :=
  match ms_headers s with
  | h :: _ =>
      do s1 <- ms_allocate al s (h_cols h);
      do lhs <- ms_matrix s1 (ms_num s1 - 2);
      assign_top s1 (h_cols h)
        (fun d i j => kmul (nth (h_idx h + (i + j * ms_rows s1)) d k0) a)
  | [] =>
      do s1 <- ms_allocate al s (ms_rows s);
      assign_top s1 (ms_rows s) (fun _ i j => kmul (delta i j) a)
  end.

(** pop(), L178-183; PopGuard (L71-109) calls it exactly once.  The sum is computed in
    32-bit unsigned arithmetic (uint32_t + int). *)
Definition ms_pop (s : mstack) : res mstack :=
  match ms_headers s with
  | [] => Throw
  | _ :: hs =>
      Ok (mkMS (ms_rows s) (ms_data s) hs
            (match hs with [] => 0 | h :: _ => wrap32 (h_idx h + ms_rows s * h_cols h) end))
  end.

(** A client program of the stack: the public mutators. *)
(* in the model only: push and pop (MatrixStack.hpp L178) as data *)
Inductive op := PushM (m : dmat) | PushS (a : K) | Pop.

(* in the model only: dispatch *)
Definition ms_step (al : nat) (s : mstack) (o : op) : res mstack :=
  match o with
  | PushM m => ms_push al s m
  | PushS a => ms_push_scalar al s a
  | Pop => ms_pop s
  end.

(* in the model only: a sequence of calls *)
Fixpoint ms_run (al : nat) (s : mstack) (ops : list op) : res mstack :=
  match ops with
  | [] => Ok s
  | o :: t => do s' <- ms_step al s o; ms_run al s' t
  end.
End Model.
