(** * Properties C13, C14: column layout and state update *)
From Coq Require Import Arith List ZArith Bool Lia.
From Verif Require Import Lib_Ring Lib_Res DesignVar_Base Layout_Model Layout_Spec Layout_Proofs.
Import ListNotations.

(** C13: [act] are the active variables in problem order.  The k-th of them gets block index k and
    starts at the column where the first k variables end; the total is the sum of all dimensions;
    inactive variables are untouched; row bases of squared terms are contiguous too; the call throws
    exactly if there is no active variable or no error term. *)
Theorem C13_layout_is_compact :
  forall (K : Type) (h : dvheap K) dvs numNS dimsS, NoDup dvs ->
  let act := filter (fun i => dv_active (h i)) dvs in
  let dim v := dv_dim (h v) in
  match initialize h dvs numNS dimsS with
  | Ok p =>
      pm_dvs p = act /\ act <> [] /\ (numNS <> 0 \/ dimsS <> []) /\
      (forall k v, nth_error act k = Some v ->
         dv_block (pm_heap p v) = Z.of_nat k /\ dv_col (pm_heap p v) = Z.of_nat (base_of dim act k)) /\
      pm_numOpt p = Z.of_nat (base_of dim act (length act)) /\
      (forall v, ~ In v act -> pm_heap p v = h v) /\
      agree_attr h (pm_heap p) /\
      (forall k, k < length dimsS -> nth k (pm_rows p) 0 = fold_right plus 0 (firstn k dimsS)) /\
      pm_numErr p = numNS + length dimsS
  | Throw => act = [] \/ (numNS = 0 /\ dimsS = [])
  | UB => False
  end.
Proof. exact (fun K => @initialize_ok K). Qed.
Print Assumptions C13_layout_is_compact.

(** C13: without gap or overlap: every column below the total lies in the range of exactly one variable *)
Theorem C13_columns_partition :
  forall (dim : nat -> nat) (l : list nat) c, c < base_of dim l (length l) ->
  exists! k, exists v, nth_error l k = Some v /\ base_of dim l k <= c < base_of dim l k + dim v.
Proof. exact columns_tile. Qed.
Print Assumptions C13_columns_partition.

(** C13: initialising again gives the same layout *)
Theorem C13_initialize_idempotent :
  forall (K : Type) (h : dvheap K) dvs numNS dimsS p, NoDup dvs ->
  initialize h dvs numNS dimsS = Ok p ->
  exists p', initialize (pm_heap p) dvs numNS dimsS = Ok p' /\
    pm_dvs p' = pm_dvs p /\ pm_numOpt p' = pm_numOpt p /\ pm_rows p' = pm_rows p /\
    (forall v, dv_block (pm_heap p' v) = dv_block (pm_heap p v) /\ dv_col (pm_heap p' v) = dv_col (pm_heap p v)).
Proof. exact (fun K => @initialize_twice K). Qed.
Print Assumptions C13_initialize_idempotent.

(** C13, Optimizer (version 1): exactly the active variables, not-marginalised ones first, block
    indices 0,1,2,..., cumulative dimensions in [blocks] *)
Theorem C13_optimizer1_layout :
  forall (K : Type) (h : dvheap K) marg doSchur dvs all nd h' blocks, NoDup dvs ->
  initialize_v1 h marg doSchur dvs = Ok (all, nd, h', blocks) ->
  (forall v, In v all <-> In v dvs /\ dv_active (h v) = true) /\ NoDup all /\ 0 < nd /\
  (forall k v, nth_error all k = Some v -> dv_block (h' v) = Z.of_nat k) /\
  (forall k v, nth_error all k = Some v -> (k < nd <-> marg v && doSchur = false)) /\
  (forall k, k < length all -> nth k blocks 0 = base_of (fun v => dv_dim (h v)) all (S k)) /\
  (forall v, ~ In v all -> h' v = h v).
Proof. exact (fun K => @initialize_v1_ok K). Qed.
Print Assumptions C13_optimizer1_layout.

(** C14: for every layout produced by initialize and every dx of the right length *)
Theorem C14_state_update_slices :
  forall (K : Type) (R : CRing K) (h0 : dvheap K) dvs numNS dimsS p dx, NoDup dvs ->
  initialize h0 dvs numNS dimsS = Ok p -> Z.of_nat (length dx) = pm_numOpt p ->
  exists calls, applyStateUpdate (pm_heap p) (pm_dvs p) 0 dx = Ok calls /\
    (* exactly one call per active variable, in order *)
    map fst calls = pm_dvs p /\
    (* with its own columns, scaled *)
    (forall v, In v (pm_dvs p) -> In (v, map (fun x => kmul x (dv_scaling (h0 v)))
        (firstn (dv_dim (h0 v)) (skipn (Z.to_nat (dv_col (pm_heap p v))) dx))) calls) /\
    (* the slices in order are exactly dx *)
    concat (map (fun v => firstn (dv_dim (h0 v)) (skipn (Z.to_nat (dv_col (pm_heap p v))) dx)) (pm_dvs p)) = dx /\
    (* effect on the values *)
    (forall (S : Type) (upd : nat -> S -> list K -> S) vals v,
       exec_updates upd calls vals v =
       if in_dec Nat.eq_dec v (pm_dvs p)
       then upd v (vals v) (map (fun x => kmul x (dv_scaling (h0 v))) (firstn (dv_dim (h0 v)) (skipn (Z.to_nat (dv_col (pm_heap p v))) dx)))
       else vals v).
Proof. exact (fun K R => @applyStateUpdate_ok K R). Qed.
Print Assumptions C14_state_update_slices.

(** C14, the companion for gradients: applyDesignVariableScaling multiplies every column of a
    variable by the scaling of that variable, once *)
Theorem C14_gradient_scaling :
  forall (K : Type) (R : CRing K) (h0 : dvheap K) dvs numNS dimsS p (g : vec K), NoDup dvs ->
  initialize h0 dvs numNS dimsS = Ok p ->
  forall k v i, nth_error (pm_dvs p) k = Some v -> i < dv_dim (h0 v) ->
    applyDesignVariableScaling (pm_heap p) (pm_dvs p) g (Z.to_nat (dv_col (pm_heap p v)) + i) =
    kmul (g (Z.to_nat (dv_col (pm_heap p v)) + i)) (dv_scaling (h0 v)).
Proof. exact (fun K R => @scaling_ok K R). Qed.
Print Assumptions C14_gradient_scaling.

(** ** examples: variables 0 (dim 3), 1 (inactive), 2 (dim 2, scaling 10), 3 (dim 1) *)
Definition ex_heap : dvheap Z := fun v =>
  match v with
  | 0 => mkDv 0 true (-1)%Z (-1)%Z 3 1%Z
  | 1 => mkDv 1 false (-1)%Z (-1)%Z 4 1%Z
  | 2 => mkDv 2 true (-1)%Z (-1)%Z 2 10%Z
  | _ => mkDv v true (-1)%Z (-1)%Z 1 1%Z
  end.
Example C13_example : match initialize ex_heap [0; 1; 2; 3] 0 [2; 3] with
  | Ok p => pm_dvs p = [0; 2; 3] /\ map (fun v => dv_col (pm_heap p v)) [0; 1; 2; 3] = [0; -1; 3; 5]%Z /\ pm_numOpt p = 6%Z /\ pm_rows p = [0; 2]
  | _ => False end.
Proof. vm_compute. auto. Qed.
Example C13_example_tile : base_of (fun v => dv_dim (ex_heap v)) [0; 2; 3] 3 = 6.
Proof. reflexivity. Qed.
Example C13_example_v1 : match initialize_v1 ex_heap (fun v => v =? 0) true [0; 1; 2; 3] with
  | Ok (all, nd, _, blocks) => all = [2; 3; 0] /\ nd = 2 /\ blocks = [2; 3; 6] | _ => False end.
Proof. vm_compute. auto. Qed.
Example C14_example : match initialize ex_heap [0; 1; 2; 3] 0 [2; 3] with
  | Ok p => applyStateUpdate (R := ZRing) (pm_heap p) (pm_dvs p) 0 [1; 2; 3; 4; 5; 6]%Z =
            Ok [(0, [1; 2; 3]%Z); (2, [40; 50]%Z); (3, [6]%Z)]
  | _ => False end.
Proof. vm_compute. auto. Qed.

(** the hypothesis on the length is needed: a shorter dx is read out of bounds *)
Example C14_short_dx : match initialize ex_heap [0; 1; 2; 3] 0 [2; 3] with
  | Ok p => applyStateUpdate (R := ZRing) (pm_heap p) (pm_dvs p) 0 [1; 2; 3; 4; 5]%Z = UB
  | _ => False end.
Proof. vm_compute. auto. Qed.
