(** * Block-sparse matrix: properties C42 - C44

    [well_formed m]: layouts are monotone, the keys of every column sorted and in range. [stands_for m A]: the blocks of [m] are those of the
    dense matrix [A], missing blocks zero. [represents m rbi cbi A]: in addition [m] owns its blocks and has these layouts (SBM_Spec.v). *)
From Coq Require Import Arith List ZArith Bool Sorting.Sorted.
From Verif Require Import Lib_Ring Lib_Res SBM_Model SBM_Spec SBM_Proofs2 SBM_Proofs3 SBM_Proofs4 SBM_Proofs5 SBM_Toy.
Import ListNotations.

(** C42: element access and dense conversion give the entries of the matrix. *)
Theorem C42_access : forall (K : Type) (R : CRing K) (m : sbm K) A, well_formed m -> stands_for m A ->
  (forall r c, r < total (s_rbi m) -> c < total (s_cbi m) -> element m r c = Ok (A r c) /\ toDense m r c = A r c) /\
  (forall r c, total (s_rbi m) <= r \/ total (s_cbi m) <= c -> element m r c = Throw).
Proof. exact (fun K R m A W S => conj (fun r c Hr Hc => conj (element_ok m A r c W S Hr Hc) (toDense_ok m A r c W S Hr Hc)) (element_out m)). Qed.
Print Assumptions C42_access.
Example C42_access_case : represents toy lay lay denseToy /\ element toy 1 2 = Ok 11%Z /\ element toy 2 1 = Ok 0%Z /\ denseToy 1 2 = 11%Z.
Proof. exact (conj toy_represents (conj eq_refl (conj eq_refl eq_refl))). Qed.

(** C42: transpose, addition and multiplication into a new matrix; addition and multiplication into an existing one add to it;
    transposing into an existing one is right if that one stores no further blocks. *)
Theorem C42_transpose_partial : forall (K : Type) (R : CRing K) (m : sbm K) A, well_formed m -> stands_for m A ->
  delivers (transpose m None) (s_cbi m) (s_rbi m) (mtr A) /\
  (forall d, well_formed d -> s_storage d = true -> s_rbi d = s_cbi m -> s_cbi d = s_rbi m -> (forall r c, get d c r <> None -> get m r c <> None) ->
     delivers (transpose m (Some d)) (s_cbi m) (s_rbi m) (mtr A)).
Proof. exact (fun K R m A W S => conj (transpose_ok m A W S) (fun d Wd Sd E1 E2 N => transpose_into m A d W S Wd Sd E1 E2 N)). Qed.
Print Assumptions C42_transpose_partial.
Example C42_transpose_case : well_formed toy /\ stands_for toy denseToy /\ mtr denseToy 2 1 = 11%Z.
Proof. exact (conj toy_wf (conj toy_stands eq_refl)). Qed.
Theorem C42_transpose_refuted : exists (m d : sbm Z) A D, represents m lay lay A /\ represents d lay lay D /\ ~ delivers (transpose m (Some d)) lay lay (mtr A).
Proof. exact transpose_stale. Qed.
Print Assumptions C42_transpose_refuted.

Theorem C42_add : forall (K : Type) (R : CRing K) (m : sbm K) A, well_formed m -> stands_for m A ->
  delivers (add m None) (s_rbi m) (s_cbi m) A /\
  (forall d D, represents d (s_rbi m) (s_cbi m) D -> delivers (add m (Some d)) (s_rbi m) (s_cbi m) (madd D A)).
Proof. exact (fun K R m A W S => conj (add_none m A W S) (fun d D Rd => add_some m A d D W S Rd)). Qed.
Print Assumptions C42_add.
Example C42_add_case : represents stale (s_rbi toy) (s_cbi toy) (toDense stale) /\ madd (toDense stale) denseToy 0 2 = 20%Z.
Proof. exact (conj stale_represents eq_refl). Qed.

(** The header promises dest = this * M; an existing dest gets the product added. *)
Theorem C42_multiply_partial : forall (K : Type) (R : CRing K) (m f : sbm K) A B, well_formed m -> well_formed f -> s_cbi m = s_rbi f -> stands_for m A -> stands_for f B ->
  delivers (multiply m f None) (s_rbi m) (s_cbi f) (mmul (total (s_cbi m)) A B) /\
  (forall d D, represents d (s_rbi m) (s_cbi f) D -> delivers (multiply m f (Some d)) (s_rbi m) (s_cbi f) (madd D (mmul (total (s_cbi m)) A B))).
Proof. exact (fun K R m f A B Wm Wf E SA SB => conj (multiply_none m f A B Wm Wf E SA SB) (fun d D Rd => multiply_some m f A B d D Wm Wf E SA SB Rd)). Qed.
Print Assumptions C42_multiply_partial.
Example C42_multiply_case : well_formed toy /\ s_cbi toy = s_rbi toy /\ stands_for toy denseToy /\ mmul 3 denseToy denseToy 1 2 = 130%Z.
Proof. exact (conj toy_wf (conj eq_refl (conj toy_stands eq_refl))). Qed.
Theorem C42_multiply_refuted : exists (m f d : sbm Z) A B D, represents m lay lay A /\ represents f lay lay B /\ represents d lay lay D /\
  ~ delivers (multiply m f (Some d)) lay lay (mmul 3 A B).
Proof. exact multiply_accumulates. Qed.
Print Assumptions C42_multiply_refuted.

(** C42: products with vectors; the versions with pointers add to a given destination. *)
Theorem C42_vectors : forall (K : Type) (R : CRing K) (m : sbm K) A (x y : vec K), well_formed m -> stands_for m A ->
  (forall p, p < total (s_rbi m) -> multiplyVec m x p = mvmul (total (s_cbi m)) A x p /\ multiplyPtr m None x p = mvmul (total (s_cbi m)) A x p /\
     multiplyPtr m (Some y) x p = kadd (y p) (mvmul (total (s_cbi m)) A x p)) /\
  (forall q, q < total (s_cbi m) -> rightMultiplyVec m x q = mvmul (total (s_rbi m)) (mtr A) x q /\ rightMultiplyPtr m None x q = mvmul (total (s_rbi m)) (mtr A) x q /\
     rightMultiplyPtr m (Some y) x q = kadd (y q) (mvmul (total (s_rbi m)) (mtr A) x q)).
Proof. exact (fun K R m A x y W S => vectors_ok m A x y W S). Qed.
Print Assumptions C42_vectors.
Example C42_vectors_case : represents toy lay lay denseToy /\ multiplyVec toy (fun p => Z.of_nat p + 1)%Z 1 = 41%Z /\ rightMultiplyVec toy (fun p => Z.of_nat p + 1)%Z 2 = 53%Z.
Proof. exact (conj toy_represents (conj eq_refl eq_refl)). Qed.
Theorem C42_pointer_refuted : exists (m : sbm Z) A (y x : vec Z), represents m lay lay A /\ multiplyPtr m (Some y) x 0 <> mvmul 3 A x 0 /\ rightMultiplyPtr m (Some y) x 0 <> mvmul 3 (mtr A) x 0 /\
  multiplyVec m x 0 = mvmul 3 A x 0 /\ rightMultiplyVec m x 0 = mvmul 3 (mtr A) x 0.
Proof. exact pointer_accumulates. Qed.
Print Assumptions C42_pointer_refuted.

(** C42: scaling, clearing (with and without giving back the blocks) and cloning. *)
Theorem C42_scale_clear_clone : forall (K : Type) (R : CRing K) (m : sbm K) rbi cbi A, represents m rbi cbi A ->
  (forall a, represents (scale a m) rbi cbi (mscale a A)) /\
  (forall dealloc, represents (clear dealloc m) rbi cbi (fun _ _ => k0)) /\
  (forall r c, get (clear true m) r c = None) /\ (forall r c, get (clear false m) r c = None <-> get m r c = None) /\
  represents (clone m) rbi cbi A.
Proof. exact (fun K R m rbi cbi A Rm => scale_clear_clone m rbi cbi A Rm). Qed.
Print Assumptions C42_scale_clear_clone.
Example C42_scale_case : represents toy lay lay denseToy /\ element (scale 3%Z toy) 1 2 = Ok 33%Z.
Proof. exact (conj toy_represents eq_refl). Qed.

(** C42: slices by blocks, into a new matrix and into a given one of the right layout. *)
Theorem C42_slice : forall (K : Type) (R : CRing K) (m : sbm K) A rmin rmax cmin cmax, well_formed m -> stands_for m A ->
  rmin < rmax -> cmin < cmax -> rmax <= length (s_rbi m) -> cmax <= length (s_cbi m) ->
  exists d rbi cbi, slice m rmin rmax cmin cmax = Ok d /\ represents d rbi cbi (fun p q => A (base (s_rbi m) rmin + p) (base (s_cbi m) cmin + q)) /\
    length rbi = rmax - rmin /\ length cbi = cmax - cmin /\
    (forall k, k < rmax - rmin -> bsize rbi k = bsize (s_rbi m) (rmin + k)) /\ (forall k, k < cmax - cmin -> bsize cbi k = bsize (s_cbi m) (cmin + k)).
Proof. exact (fun K R m A rmin rmax cmin cmax => slice_ok m A rmin rmax cmin cmax). Qed.
Print Assumptions C42_slice.
Example C42_slice_case : well_formed toy /\ stands_for toy denseToy /\ match slice toy 0 2 1 2 with Ok d => element d 1 0 | _ => UB end = Ok 11%Z.
Proof. exact (conj toy_wf (conj toy_stands eq_refl)). Qed.
Theorem C42_slice_into : forall (K : Type) (R : CRing K) (m : sbm K) A rmin rmax cmin cmax out rbi cbi D, well_formed m -> stands_for m A ->
  rmin <= rmax -> cmin <= cmax -> rmax <= length (s_rbi m) -> cmax <= length (s_cbi m) ->
  represents out rbi cbi D -> length rbi = rmax - rmin -> length cbi = cmax - cmin ->
  (forall k, k < rmax - rmin -> bsize rbi k = bsize (s_rbi m) (rmin + k)) -> (forall k, k < cmax - cmin -> bsize cbi k = bsize (s_cbi m) (cmin + k)) ->
  exists d, sliceInto m rmin rmax cmin cmax out = Ok d /\ represents d rbi cbi (fun p q => A (base (s_rbi m) rmin + p) (base (s_cbi m) cmin + q)).
Proof. exact (fun K R m A rmin rmax cmin cmax out rbi cbi D => sliceInto_ok m A rmin rmax cmin cmax out rbi cbi D). Qed.
Print Assumptions C42_slice_into.
Example C42_slice_into_case : represents stale lay lay (toDense stale) /\ match sliceInto toy 0 2 0 2 stale with Ok d => element d 0 2 | _ => UB end = Ok 10%Z.
Proof. exact (conj stale_represents eq_refl). Qed.

(** C43: the full permutation. [permuted rbi pinv l A A']: block (pinv i, pinv j) of A' is block (i, j) of A. The destination is new or has the permuted layout. *)
Theorem C43_full : forall (K : Type) (R : CRing K) (m : sbm K) A pinv l A' dest, well_formed m -> s_cbi m = s_rbi m -> s_rbi m <> [] -> stands_for m A ->
  is_perm (length (s_rbi m)) pinv -> permuted_blocks (s_rbi m) pinv l -> permuted (s_rbi m) pinv l A A' -> usable dest l ->
  delivers (symmPermutation m dest pinv false) l l A'.
Proof. exact (fun K R m A pinv l A' dest => symm_full m A pinv l A' dest). Qed.
Print Assumptions C43_full.
Example C43_full_case : well_formed toy /\ is_perm 2 swap /\ permuted_blocks lay swap lay' /\ permuted lay swap lay' denseToy (moved denseToy) /\ usable (@None (sbm Z)) lay' /\ moved denseToy 2 0 = 11%Z.
Proof. exact (conj toy_wf (conj swap_perm (conj swap_blocks (conj (swap_content denseToy) (conj I eq_refl))))). Qed.

(** C43: upper triangle only. Of the symmetric matrix S one or both of each pair of blocks are stored; the result holds the upper blocks of P S P^T. *)
Theorem C43_upper : forall (K : Type) (R : CRing K) (m : sbm K) S pinv l S' dest, well_formed m -> s_cbi m = s_rbi m -> s_rbi m <> [] -> stores_half m S ->
  is_perm (length (s_rbi m)) pinv -> permuted_blocks (s_rbi m) pinv l -> permuted (s_rbi m) pinv l S S' -> usable dest l ->
  exists d, symmPermutation m dest pinv true = Ok (Some d) /\ holds_upper d l S' /\ (dest = None -> forall r c, c < r -> get d r c = None).
Proof. exact (fun K R m S pinv l S' dest => symm_upper m S pinv l S' dest). Qed.
Print Assumptions C43_upper.
Example C43_upper_case : stores_half toy (symm denseToy) /\ permuted lay swap lay' (symm denseToy) (moved (symm denseToy)) /\ moved (symm denseToy) 0 2 = 11%Z.
Proof. exact (conj toy_half (conj (swap_content (symm denseToy)) eq_refl)). Qed.

(** C43: the permuted layout always exists, and a destination with another layout is refused. *)
Theorem C43_layout : forall (K : Type) (R : CRing K) (m : sbm K) pinv, well_formed m -> s_rbi m <> [] -> is_perm (length (s_rbi m)) pinv ->
  exists l, permuted_blocks (s_rbi m) pinv l /\ forall d upper, s_rbi d <> l \/ s_cbi d <> l -> symmPermutation m (Some d) pinv upper = Ok None.
Proof. exact (fun K R m pinv => layout_exists m pinv). Qed.
Print Assumptions C43_layout.
Example C43_layout_case : well_formed toy /\ is_perm (length (s_rbi toy)) swap /\ s_rbi stale <> lay'.
Proof. exact (conj toy_wf (conj swap_perm lay_differs)). Qed.

(** C44: compressed columns of the whole matrix: sorted rows, monotone column pointers, the entries of A. *)
Theorem C44_full : forall (K : Type) (R : CRing K) (m : sbm K) A, well_formed m -> stands_for m A ->
  exists x, fillCCS m false = Ok x /\ is_ccs (total (s_rbi m)) (total (s_cbi m)) A x /\ fillCCS_values m false = Ok (snd x).
Proof. exact (fun K R m A W S => full_values m A W S). Qed.
Print Assumptions C44_full.
Example C44_full_case : well_formed toy /\ stands_for toy denseToy /\ fillCCS toy false = Ok ([0; 2; 4; 7], [0; 1; 0; 1; 0; 1; 2], [1; 2; 2; 3; 10; 11; 7]%Z).
Proof. exact (conj toy_wf (conj toy_stands eq_refl)). Qed.

(** C44: the upper triangle, and the symmetric matrix given by it. Missing: blocks stored below the diagonal and empty blocks, see the refuted theorems. *)
Theorem C44_upper_partial : forall (K : Type) (R : CRing K) (m : sbm K) A, well_formed m -> s_cbi m = s_rbi m -> positive (s_rbi m) -> upper_only m -> stands_for m A ->
  (exists x, fillCCS m true = Ok x /\ is_ccs (total (s_rbi m)) (total (s_cbi m)) (triu A) x /\ fillCCS_values m true = Ok (snd x)) /\
  (exists x, fillUpper m = Ok x /\ is_ccs (total (s_rbi m)) (total (s_cbi m)) (symm A) x /\ fillUpper_values m = Ok (snd x)).
Proof. exact (fun K R m A W Sq P U S => upper_both m A W Sq P U S). Qed.
Print Assumptions C44_upper_partial.
Example C44_upper_case : well_formed toy /\ positive (s_rbi toy) /\ upper_only toy /\ stands_for toy denseToy /\
  fillCCS toy true = Ok ([0; 1; 3; 6], [0; 0; 1; 0; 1; 2], [1; 2; 3; 10; 11; 7]%Z) /\
  fillUpper toy = Ok ([0; 3; 6; 9], [0; 1; 2; 0; 1; 2; 0; 1; 2], [1; 2; 10; 2; 3; 11; 10; 11; 7]%Z).
Proof. exact (conj toy_wf (conj toy_positive (conj toy_upper (conj toy_stands (conj eq_refl eq_refl))))). Qed.

(** C44: whatever is stored, refilling the values gives the values of the full fill, and fails exactly when it fails. *)
Theorem C44_values : forall (K : Type) (R : CRing K) (m : sbm K),
  (forall upper, fillCCS_values m upper = match fillCCS m upper with Ok x => Ok (snd x) | Throw => Throw | UB => UB end) /\
  fillUpper_values m = match fillUpper m with Ok x => Ok (snd x) | Throw => Throw | UB => UB end.
Proof. exact (fun K R m => conj (values_ok m) (upper_values_ok m)). Qed.
Print Assumptions C44_values.
Example C44_values_case : fillCCS_values toy true = Ok [1; 2; 3; 10; 11; 7]%Z.
Proof. reflexivity. Qed.

(** C44 fails for blocks stored below the diagonal: fillUpperTriangleCCS then gives no compressed-column matrix at all, and fillCCS not the upper triangle. *)
Theorem C44_lower_refuted : exists (m : sbm Z) A x, represents m lay lay A /\ (forall p q, p < 3 -> q < 3 -> A p q = A q p) /\ fillUpper m = Ok x /\ forall C, ~ is_ccs 3 3 C x.
Proof. exact lower_block. Qed.
Print Assumptions C44_lower_refuted.
Theorem C44_triu_refuted : exists (m : sbm Z) A x, represents m lay lay A /\ fillCCS m true = Ok x /\ ~ is_ccs 3 3 (triu A) x.
Proof. exact lower_block_triu. Qed.
Print Assumptions C44_triu_refuted.
(** C44 fails for empty blocks: the next block is taken for the diagonal one and read beyond its end. *)
Theorem C44_empty_refuted : exists m : sbm Z, well_formed m /\ s_cbi m = s_rbi m /\ upper_only m /\ fillCCS m true = UB.
Proof. exact empty_block. Qed.
Print Assumptions C44_empty_refuted.

(** C44: the block structure lists for every block column exactly the stored blocks on and above the diagonal, in order. *)
Theorem C44_structure : forall (K : Type) (R : CRing K) (m : sbm K) i, well_formed m -> i < length (s_cbi m) -> let x := fillBlockStructure m in
  let rows := firstn (nth (S i) (fst x) 0 - nth i (fst x) 0) (skipn (nth i (fst x) 0) (snd x)) in
  StronglySorted lt rows /\ forall r, In r rows <-> r <= i /\ get m r i <> None.
Proof. exact (fun K R m i => structure_ok m i). Qed.
Print Assumptions C44_structure.
Example C44_structure_case : well_formed toy /\ fillBlockStructure toy = ([0; 1; 3], [0; 0; 1]).
Proof. exact (conj toy_wf eq_refl). Qed.
