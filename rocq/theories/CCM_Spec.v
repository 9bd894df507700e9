(** * Specifications for the compressed-column matrix *)
From Coq Require Import Arith Lia List ZArith Bool Sorting.Sorted Sorting.Permutation.
From Verif Require Import Lib_Ring Lib_Res CCM_Model.
Import ListNotations.

Section Spec.
  Context {K : Type}.
  Variable z : K.

  Definition colptr (m : ccm K) (c : nat) : nat := nth c (c_cp m) 0.
  Definition rowind (m : ccm K) (p : nat) : nat := nth p (c_ri m) 0.

  (* column pointers are monotone and within the value array, row indices are in range and sorted in each column *)
  Record well_formed (m : ccm K) : Prop := {
    wf_cp_len : length (c_cp m) = c_cols m + 1;
    wf_ri_len : length (c_ri m) = length (c_vals m);
    wf_first : colptr m 0 = 0;
    wf_last : colptr m (c_cols m) = length (c_vals m);
    wf_mono : forall c, c < c_cols m -> colptr m c <= colptr m (c + 1);
    wf_range : forall c p, c < c_cols m -> colptr m c <= p < colptr m (c + 1) -> rowind m p < c_rows m;
    wf_sorted : forall c p q, c < c_cols m -> colptr m c <= p -> p < q -> q < colptr m (c + 1) -> rowind m p < rowind m q }.

  (* the dense matrix a compressed-column matrix stands for: each entry is stored in its column, or not stored and zero *)
  Definition stands_for (m : ccm K) (A : nat -> nat -> K) : Prop :=
    forall r c, r < c_rows m -> c < c_cols m ->
      (exists p, colptr m c <= p < colptr m (c + 1) /\ rowind m p = r /\ nth_error (c_vals m) p = Some (A r c)) \/
      ((forall p, colptr m c <= p < colptr m (c + 1) -> rowind m p <> r) /\ A r c = z).

  (** ** the matrix as the user sees it: a dense matrix, and whether its last block is a pushed diagonal *)
  Record dense := mkDense { d_rows : nat; d_cols : nat; d_mat : nat -> nat -> K; d_diag : bool; d_acc : bool }.

  (* entry (c, r) of a Jacobian given by its blocks, so entry (r, c) of the transposed Jacobian *)
  Fixpoint jac_entry (jc : list (jblock K)) (c r : nat) : K :=
    match jc with
    | [] => z
    | b :: jc' => let d := jb_dv b in
      if (j_base d <=? r) && (r <? j_base d + j_dim d) then jb_mat b c (r - j_base d) else jac_entry jc' c r
    end.

  (* the calls; [OReset] is clear followed by init, as the builder does it *)
  Inductive op :=
  | OInit (rows cols : nat) | OReset (rows cols : nat) | OClear | OAccept (b : bool)
  | OFromDense (keep : K -> bool) (rows cols : nat) (M : nat -> nat -> K)
  | OAppend (jrows : nat) (jc : list (jblock K))
  | OPush (d : list K) | OPushConstant (x : K) | OPop | OUpdate (d : list K) | OUpdateConstant (x : K)
  | OCholmod (rows cols : nat) (p i : list nat) (x : list K).

  (* what the calls do in the code *)
  Definition exec (o : op) (m : ccm K) : res (ccm K) :=
    match o with
    | OInit rows cols => Ok (init rows cols m)
    | OReset rows cols => Ok (init rows cols (clear m))
    | OClear => Ok (clear m)
    | OAccept b => Ok (setAccept b m)
    | OFromDense keep rows cols M => fromDense keep M rows cols m
    | OAppend jrows jc => appendJacobians z jrows jc m
    | OPush d => pushDiagonal d m
    | OPushConstant x => pushConstant x m
    | OPop => popDiagonal m
    | OUpdate d => updateDiagonal d m
    | OUpdateConstant x => updateConstant x m
    | OCholmod rows cols p i x => fromCholmod rows cols p i x m
    end.

  (* what they mean; None: refused *)
  (* an entry of the matrix held in the arrays of a cholmod_sparse: column pointers p, row indices i, values x *)
  Definition csc_entry (p i : list nat) (x : list K) (r c : nat) : K :=
    match List.find (fun k => nth k i 0 =? r) (seq (nth c p 0) (nth (c + 1) p 0 - nth c p 0)) with Some k => nth k x z | None => z end.
  Definition with_diagonal (d : nat -> K) (n : nat) (a : dense) : dense :=
    mkDense (d_rows a) (n + d_rows a) (fun r c => if c <? n then d_mat a r c else if r =? c - n then d r else z) true (d_acc a).
  Definition meaning (o : op) (a : dense) : option dense :=
    match o with
    | OInit rows cols | OReset rows cols => Some (mkDense rows cols (fun _ _ => z) false (d_acc a))
    | OClear => Some (mkDense (d_rows a) (d_cols a) (fun _ _ => z) (d_diag a) (d_acc a))
    | OAccept b => Some (mkDense (d_rows a) (d_cols a) (d_mat a) (d_diag a) b)
    | OFromDense keep rows cols M => Some (mkDense rows cols (fun r c => if keep (M r c) then M r c else z) false (d_acc a))
    | OAppend jrows jc =>
      if d_diag a then None
      else if negb (d_acc a) && (length jc =? 0) then None
      else Some (mkDense (d_rows a) (d_cols a + jrows) (fun r c => if c <? d_cols a then d_mat a r c else jac_entry jc (c - d_cols a) r) false (d_acc a))
    | OPush d => if d_diag a then None else if length d =? d_rows a then Some (with_diagonal (fun i => nth i d z) (d_cols a) a) else None
    | OPushConstant x => if d_diag a then None else Some (with_diagonal (fun _ => x) (d_cols a) a)
    | OPop => if d_diag a then Some (mkDense (d_rows a) (d_cols a - d_rows a) (d_mat a) false (d_acc a)) else None
    | OUpdate d => if d_diag a then Some (with_diagonal (fun i => nth i d z) (d_cols a - d_rows a) a) else None
    | OUpdateConstant x => if d_diag a then Some (with_diagonal (fun _ => x) (d_cols a - d_rows a) a) else None
    | OCholmod rows cols p i x => Some (mkDense rows cols (csc_entry p i x) false (d_acc a))
    end.

  (* a Jacobian as a JacobianContainerSparse holds it: active design variables in the order of their block indices and columns *)
  Definition before (a b : jblock K) : Prop :=
    (j_block (jb_dv a) < j_block (jb_dv b))%Z /\ j_base (jb_dv a) + j_dim (jb_dv a) <= j_base (jb_dv b).
  Definition jacobian_ok (rows jrows : nat) (jc : list (jblock K)) : Prop :=
    Forall (fun b => j_active (jb_dv b) = true /\ jb_rows b = jrows /\ jb_cols b = j_dim (jb_dv b) /\ j_base (jb_dv b) + j_dim (jb_dv b) <= rows) jc /\
    StronglySorted before jc.

  (* the calls for which the code does what they mean *)
  Definition allowed (o : op) (m : ccm K) (a : dense) : Prop :=
    match o with
    | OInit _ _ => c_vals m = []
    | OClear => False
    | OFromDense _ _ _ _ => d_diag a = false
    | OCholmod rows cols p i x => d_diag a = false /\ well_formed (mkCcm rows cols x i p false false)
    | OAppend jrows jc => jacobian_ok (d_rows a) jrows jc
    | OUpdate d => d_diag a = true -> length d = d_rows a
    | _ => True
    end.

  (* the matrices that can be reached from a new one by allowed calls, each with what it means; refused calls leave both as they are *)
  Inductive reached : ccm K -> dense -> Prop :=
  | r_new : forall rows cols, reached (construct rows cols) (mkDense rows cols (fun _ _ => z) false false)
  | r_call : forall o m a m1 a1, reached m a -> allowed o m a -> exec o m = Ok m1 -> meaning o a = Some a1 -> reached m1 a1.

  (* an error term for the builder: the active design variables and the Jacobian agree *)
  Definition term_ok (rows : nat) (e : eterm K) : Prop :=
    jacobian_ok rows (e_dim e) (e_jac e) /\ Permutation (filter j_active (e_dvs e)) (map jb_dv (e_jac e)).
  (* the transposed Jacobian of a list of error terms *)
  Fixpoint stacked (es : list (eterm K)) (r c : nat) : K :=
    match es with
    | [] => z
    | e :: es' => if c <? e_dim e then jac_entry (e_jac e) c r else stacked es' r (c - e_dim e)
    end.
  (* the matrix with other values *)
  Definition with_values (m : ccm K) (V : list K) : ccm K := mkCcm (c_rows m) (c_cols m) V (c_ri m) (c_cp m) (c_diag m) (c_acc m).
  (* the writes to the value array made for one error term *)
  Definition term_writes (ep : eterm K * jcp) : list (nat * K) := value_writes (snd ep) 0 (e_jac (fst ep)).
End Spec.
Arguments dense K : clear implicits. Arguments op K : clear implicits.
