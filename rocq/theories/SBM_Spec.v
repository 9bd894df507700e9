(** * Specifications for SparseBlockMatrix *)
From Coq Require Import Arith Lia List Bool Sorting.Sorted.
From Verif Require Import Lib_Ring Lib_Res CCM_Model SBM_Model.
From Verif Require CCM_Spec.
Import ListNotations.

Section Spec.
  Context {K : Type} {R : CRing K}.

  (* a layout: the ends of the blocks, in order (blocks may be empty) *)
  Definition layout_ok (l : list nat) : Prop := forall b, S b < length l -> nth b l 0 <= nth (S b) l 0.
  Record well_formed (m : sbm K) : Prop := {
    wf_rows : layout_ok (s_rbi m);
    wf_cols : layout_ok (s_cbi m);
    wf_len : length (s_cols m) = length (s_cbi m);
    wf_keys : forall c, StronglySorted lt (map fst (nth c (s_cols m) []));
    wf_range : forall c r B, In (r, B) (nth c (s_cols m) []) -> r < length (s_rbi m) }.

  (* the block at a position; missing blocks count as zero *)
  Definition blk (m : sbm K) (r c : nat) : mat K := match get m r c with Some B => B | None => fun _ _ => k0 end.
  (* the dense matrix that a block matrix stands for *)
  Definition stands_for (m : sbm K) (A : mat K) : Prop :=
    forall br bc i j, br < length (s_rbi m) -> bc < length (s_cbi m) -> i < bsize (s_rbi m) br -> j < bsize (s_cbi m) bc ->
      A (base (s_rbi m) br + i) (base (s_cbi m) bc + j) = blk m br bc i j.
  (* a good block matrix with the given layout that owns its blocks and stands for A *)
  Definition represents (m : sbm K) (rbi cbi : list nat) (A : mat K) : Prop :=
    well_formed m /\ s_storage m = true /\ s_rbi m = rbi /\ s_cbi m = cbi /\ stands_for m A.

  (* an operation that delivers a matrix with this layout and content *)
  Definition delivers (r : res (option (sbm K))) (rbi cbi : list nat) (A : mat K) : Prop :=
    exists d, r = Ok (Some d) /\ represents d rbi cbi A.

  (* a permutation of 0 .. n-1 *)
  Definition is_perm (n : nat) (p : nat -> nat) : Prop := (forall i, i < n -> p i < n) /\ (forall i j, i < n -> j < n -> p i = p j -> i = j).
  (* block i of the old matrix is block (pinv i) of the new one: the new layout, and the new content P A P^T *)
  Definition permuted_blocks (rbi : list nat) (pinv : nat -> nat) (l : list nat) : Prop :=
    layout_ok l /\ length l = length rbi /\ forall i, i < length rbi -> bsize l (pinv i) = bsize rbi i.
  Definition permuted (rbi : list nat) (pinv : nat -> nat) (l : list nat) (A A' : mat K) : Prop :=
    forall br bc i j, br < length rbi -> bc < length rbi -> i < bsize rbi br -> j < bsize rbi bc ->
      A' (base l (pinv br) + i) (base l (pinv bc) + j) = A (base rbi br + i) (base rbi bc + j).
  (* no destination, or one with the layout l *)
  Definition usable (dest : option (sbm K)) (l : list nat) : Prop := match dest with None => True | Some d => exists D, represents d l l D end.
  (* a symmetric matrix S of which the blocks are stored once or twice or, if zero, not at all *)
  Definition stores_half (m : sbm K) (S : mat K) : Prop :=
    (forall p q, p < total (s_rbi m) -> q < total (s_rbi m) -> S p q = S q p) /\
    (forall r c B i j, get m r c = Some B -> i < bsize (s_rbi m) r -> j < bsize (s_rbi m) c -> B i j = S (base (s_rbi m) r + i) (base (s_rbi m) c + j)) /\
    (forall r c i j, r < length (s_rbi m) -> c < length (s_rbi m) -> get m r c = None -> get m c r = None -> i < bsize (s_rbi m) r -> j < bsize (s_rbi m) c ->
       S (base (s_rbi m) r + i) (base (s_rbi m) c + j) = k0).
  (* a good matrix with layout l whose blocks on and above the diagonal are those of S and whose blocks below are missing or zero *)
  Definition holds_upper (d : sbm K) (l : list nat) (S : mat K) : Prop :=
    well_formed d /\ s_storage d = true /\ s_rbi d = l /\ s_cbi d = l /\
    forall br bc i j, br < length l -> bc < length l -> i < bsize l br -> j < bsize l bc ->
      blk d br bc i j = if br <=? bc then S (base l br + i) (base l bc + j) else k0.

  (* column pointers, row indices and values of a rows x cols matrix A in compressed columns, rows sorted in each column *)
  Definition is_ccs (rows cols : nat) (A : mat K) (x : list nat * list nat * list K) : Prop :=
    let M := mkCcm rows cols (snd x) (snd (fst x)) (fst (fst x)) false false in
    CCM_Spec.well_formed M /\ CCM_Spec.stands_for k0 M A.
  Definition upper_only (m : sbm K) : Prop := forall r c, get m r c <> None -> r <= c.
  Definition positive (l : list nat) : Prop := forall b, b < length l -> 0 < bsize l b.
  (* the upper triangle of A; the symmetric matrix with this upper triangle *)
  Definition triu (A : mat K) : mat K := fun p q => if p <=? q then A p q else k0.
  Definition symm (A : mat K) : mat K := fun p q => if p <=? q then A p q else A q p.
End Spec.
