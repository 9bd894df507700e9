(** * Properties C01, C02: the chain-rule matrix stack *)
From Coq Require Import Arith Lia List NArith ZArith.
From Verif Require Import Lib_Ring Lib_Res MatrixStack_Model MatrixStack_Spec MatrixStack_Proofs.
Import ListNotations.

(** [op_of] translates an abstract action into the call the client makes:
    APush (FMat r c M) = push(mat), APush (FScal a) = push(scalar), APop = pop(). *)

(** C01: whatever was pushed and popped, the number of matrices is the number of factors in
    force and the top is their product; on an empty stack top() throws. *)
Theorem C01_top_is_product_of_factors :
  forall (K : Type) (R : CRing K) (n cap est al : nat) (acts : list (@action K)) (fs : list (@factor K)),
  0 < al -> (N.of_nat n < 65536)%N -> aruns n al [] acts fs ->
  exists s, ms_run al (ms_init n cap est) (map op_of acts) = Ok s /\
    ms_num s = length fs /\
    match fs with
    | [] => ms_top s = Throw
    | _ => exists v, ms_top s = Ok v /\ d_rows v = n /\ d_cols v = prod_cols n fs /\
             meq n (prod_cols n fs) (d_at v) (prod_mat n fs)
    end.
Proof. exact (fun K R => @top_product K R). Qed.
Print Assumptions C01_top_is_product_of_factors.

(** C01: every matrix on the stack, not only the top, is the product of the factors up to it *)
Theorem C01_every_level_is_a_prefix_product :
  forall (K : Type) (R : CRing K) (n cap est al : nat) (acts : list (@action K)) (fs : list (@factor K)),
  0 < al -> (N.of_nat n < 65536)%N -> aruns n al [] acts fs ->
  exists s, ms_run al (ms_init n cap est) (map op_of acts) = Ok s /\
    ms_num s = length fs /\
    forall i, i < length fs ->
      exists v, ms_matrix s i = Ok v /\ d_rows v = n /\
        d_cols v = prod_cols n (skipn (length fs - 1 - i) fs) /\
        meq n (d_cols v) (d_at v) (prod_mat n (skipn (length fs - 1 - i) fs)).
Proof. exact (fun K R => @chain_product K R). Qed.
Print Assumptions C01_every_level_is_a_prefix_product.

(** C01: push followed by pop makes every older matrix visible again, entry by entry *)
Theorem C01_pop_restores :
  forall (K : Type) (R : CRing K) (n cap est al : nat) (acts : list (@action K)) (fs : list (@factor K)) f s,
  0 < al -> (N.of_nat n < 65536)%N -> aruns n al [] acts fs ->
  aruns n al fs [APush f; APop] fs ->
  ms_run al (ms_init n cap est) (map op_of acts) = Ok s ->
  exists s', ms_run al s [op_of (APush f); Pop] = Ok s' /\ ms_headers s' = ms_headers s /\
    ms_size s' = ms_size s /\
    forall h v, In h (ms_headers s) -> view s h = Ok v ->
      exists v', view s' h = Ok v' /\ meq n (d_cols v) (d_at v') (d_at v).
Proof. exact (fun K R => @push_pop_same K R). Qed.
Print Assumptions C01_pop_restores.

(** C02: every live region is aligned, inside the buffer, and disjoint from the others *)
Theorem C02_regions_aligned_disjoint_in_bounds :
  forall (K : Type) (R : CRing K) (n cap est al : nat) (acts : list (@action K)) (fs : list (@factor K)),
  0 < al -> (N.of_nat n < 65536)%N -> aruns n al [] acts fs ->
  exists s, ms_run al (ms_init n cap est) (map op_of acts) = Ok s /\
    forall a ha, nth_error (ms_headers s) a = Some ha ->
      h_idx ha mod al = 0 /\ h_idx ha + n * h_cols ha <= length (ms_data s) /\
      forall b hb, a <> b -> nth_error (ms_headers s) b = Some hb ->
        h_idx hb + n * h_cols hb <= h_idx ha \/ h_idx ha + n * h_cols ha <= h_idx hb.
Proof. exact (fun K R => @regions K R). Qed.
Print Assumptions C02_regions_aligned_disjoint_in_bounds.

(** C02: operations on an empty stack are refused *)
Theorem C02_empty_stack_throws :
  forall (K : Type) (R : CRing K) (al : nat) (s : @mstack K),
  ms_headers s = [] ->
  ms_top s = Throw /\ ms_step al s Pop = Throw /\ forall i, ms_matrix s i = Throw.
Proof. exact (fun K R => @empty_throws K R). Qed.
Print Assumptions C02_empty_stack_throws.

(** C02 outside the stated width: a factor with 65536 columns does not fit the 16-bit header
    field; pushing it is undefined behaviour (the map has 0 columns), not an error. *)
Theorem C02_wide_matrix_refuted :
  exists (m : @dmat Z), d_rows m = 1 /\ N.of_nat (d_cols m) = 65536%N /\
    ms_push 2 (ms_init 1 0 0) m = UB.
Proof. exact wide_push. Qed.
Print Assumptions C02_wide_matrix_refuted.

(** ** A concrete case: three rows, buffer that must grow twice, a scalar in between,
    a pop and another push. *)
Definition ex_M (r c : nat) (a : Z) : @factor Z := FMat r c (fun i j => (a + Z.of_nat i * 2 + Z.of_nat j * 3)%Z).
Definition ex_acts : list (@action Z) :=
  [APush (ex_M 3 2 1); APush (FScal 5%Z); APush (ex_M 2 4 (-2)); APop; APush (ex_M 2 1 7)].
Definition ex_fs : list (@factor Z) := [ex_M 2 1 7; FScal 5%Z; ex_M 3 2 1].

Example C01_case_reachable : aruns 3 2 [] ex_acts ex_fs.
Proof. exact ltac:(unfold ex_acts, ex_fs; repeat constructor). Qed.

Example C01_case_top :
  (do s <- ms_run 2 (ms_init 3 1 2) (map op_of ex_acts);
   do v <- ms_top s;
   Ok (ms_num s, length (ms_data s), map h_idx (ms_headers s), map (fun i => d_at v i 0) [0;1;2]))
  = Ok (3, 24, [12; 6; 0], [215; 375; 535]%Z).
Proof. vm_compute. reflexivity. Qed.

Example C01_case_product : map (fun i => prod_mat 3 ex_fs i 0) [0;1;2] = [215; 375; 535]%Z.
Proof. vm_compute. reflexivity. Qed.

Example C02_case_distinct_regions : exists s, ms_run 2 (ms_init 3 1 2) (map op_of ex_acts) = Ok s /\
  (length (ms_headers s) = 3)%nat.
Proof. eexists. split. vm_compute. reflexivity. reflexivity. Qed.
