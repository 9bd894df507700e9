(** * C77: mapped design variables are views of the caller's memory *)
From Coq Require Import List ZArith Lia.
From Verif Require Import Lib_Res DV_Model Mapped_Model Mapped_Spec Mapped_Proofs Mapped_Toy.
Import ListNotations.

(** every constructor starts in step with the memory and leaves the rest of it alone; all but MappedHomogeneousPoint, which normalises, leave their array as it was *)
Theorem C77_constructed : forall F quat2r normalise k a (m : mem F) l,
  let x := make F quat2r normalise k a m in
  shows F quat2r (l ++ [fst x], snd x) (length l) /\ (forall b, b <> a -> snd x b = m b) /\ (k <> Homogeneous -> forall b, snd x b = m b) /\ (k = Homogeneous -> snd x a = normalise (m a)).
Proof. exact constructed. Qed.
Print Assumptions C77_constructed.
Example C77_constructed_case : snd (make Z zquat2r znorm Homogeneous 2 zmem) 2 = [0; 0; 1; 0]%Z /\ zmem 2 = [0; 0; 4; 0]%Z. Proof. split; reflexivity. Qed.

(** points, vectors and homogeneous points: whatever the program does - updates, reverts, setParameters, set, updateMap, writes of the caller to any array, several design variables on
    one array - expressions and getParameters show what the memory holds at that moment *)
Theorem C77_view : forall F fadd updateQuat quat2r (w : world F) i es, not_a_quaternion w i -> shows F quat2r (runs F fadd updateQuat quat2r w es) i.
Proof. exact view_vectors. Qed.
Print Assumptions C77_view.
Example C77_view_case : not_a_quaternion zT 1 /\ mvalue (nth 1 (fst (runs Z Z.add zupd zquat2r zT (firstn 5 zes))) (mkMdv Vector 0 [] [])) (snd (runs Z Z.add zupd zquat2r zT (firstn 5 zes))) = [8; 8; 8]%Z.
Proof. split; [eexists; split; [reflexivity|discriminate]|reflexivity]. Qed.

(** all kinds: the same, for quaternions as long as nobody else writes to the array and set is not called; without that condition it fails, C77_set_stale and C77_write_stale *)
Theorem C77_view_partial : forall F fadd updateQuat quat2r (w : world F) i es, shows F quat2r w i -> left_alone F fadd updateQuat quat2r i w es -> shows F quat2r (runs F fadd updateQuat quat2r w es) i.
Proof. exact view_any. Qed.
Print Assumptions C77_view_partial.
Example C77_view_partial_case : shows Z zquat2r zT 0 /\ left_alone Z Z.add zupd zquat2r 0 zT zes /\ mvalue (nth 0 (fst (runs Z Z.add zupd zquat2r zT (firstn 4 zes))) (mkMdv Vector 0 [] [])) (snd (runs Z Z.add zupd zquat2r zT (firstn 4 zes))) = [-1; 0; 0; 0; 1; 0; 0; 0; -1]%Z.
Proof.
  split; [eexists; split; [reflexivity|split; reflexivity]|]. split; [|reflexivity].
  repeat split; try exact Logic.I; cbn; try (left; split; [reflexivity|intros; discriminate]); try (right; split; [discriminate|intros a (x & E & <-) (y & E' & A); cbn in E, E'; injection E as <-; injection E' as <-; discriminate A]);
    try (intros (x & E & A); cbn in E; injection E as <-; discriminate A).
Qed.

(** MappedRotationQuaternion::set: afterwards getParameters gives the new quaternion and toRotationMatrix still the old matrix *)
Theorem C77_set_stale : forall F fadd updateQuat quat2r (w : world F) i x q, nth_error (fst w) i = Some x -> d_kind x = Quaternion ->
  let w' := step F fadd updateQuat quat2r w (Call i (SetValue q)) in exists y, nth_error (fst w') i = Some y /\ mparams y (snd w') = q /\ mvalue y (snd w') = mvalue x (snd w).
Proof. exact set_keeps_matrix. Qed.
Print Assumptions C77_set_stale.
(** so wherever quat2r tells two quaternions apart, set takes a quaternion that shows its memory to one that does not *)
Theorem C77_set_refuted : forall F fadd updateQuat quat2r (w : world F) i x q, nth_error (fst w) i = Some x -> d_kind x = Quaternion -> shows F quat2r w i -> quat2r q <> quat2r (mparams x (snd w)) ->
  ~ shows F quat2r (step F fadd updateQuat quat2r w (Call i (SetValue q))) i.
Proof. exact set_not_shown. Qed.
Print Assumptions C77_set_refuted.
Example C77_set_case : nth_error (fst zT) 0 = Some (mkMdv Quaternion 0 [0; 0; 0; 1]%Z [1; 0; 0; 0; 1; 0; 0; 0; 1]%Z) /\ shows Z zquat2r zT 0 /\ zquat2r [1; 0; 0; 0]%Z <> zquat2r (mparams (nth 0 (fst zT) (mkMdv Vector 0 [] [])) (snd zT)).
Proof. split; [reflexivity|]. split; [eexists; split; [reflexivity|split; reflexivity]|]. cbn. discriminate. Qed.

(** a write of the caller to the array of a quaternion does not reach the rotation matrix *)
Theorem C77_write_stale : forall F fadd updateQuat quat2r (w : world F) i x q, nth_error (fst w) i = Some x -> d_kind x = Quaternion ->
  let w' := step F fadd updateQuat quat2r w (Write (d_at x) q) in nth_error (fst w') i = Some x /\ mparams x (snd w') = q /\ mvalue x (snd w') = mvalue x (snd w).
Proof. exact write_keeps_matrix. Qed.
Print Assumptions C77_write_stale.

(** a step over all design variables followed by the reverts: the caller's memory is what it was, at every address, and so is every value that was in step, provided that no two design
    variables map the same array *)
Theorem C77_revert : forall F fadd updateQuat quat2r l ds (m : mem F), NoDup (map d_at l) -> length ds = length l ->
  let u := update_all F fadd updateQuat quat2r l ds m in let r := revert_all F quat2r (fst u) (snd u) in
  (forall a, snd r a = m a) /\ forall i x, nth_error l i = Some x -> shows F quat2r (l, m) i -> exists z, nth_error (fst r) i = Some z /\ mvalue z (snd r) = mvalue x m /\ mparams z (snd r) = mparams x m.
Proof. exact step_and_revert. Qed.
Print Assumptions C77_revert.
Example C77_revert_case : NoDup (map d_at zl) /\ shows Z zquat2r (zl, zmem) 1 /\
  let u := update_all Z Z.add zupd zquat2r zl [[1; 1; 1]; [1; 0; 0; 0]; [0; 1; 0; 0]]%Z zmem in snd u 0 = [1; 0; 0; 0]%Z /\ snd u 1 = [6; 7; 8]%Z /\ snd (revert_all Z zquat2r (fst u) (snd u)) 1 = [5; 6; 7]%Z.
Proof. split; [cbn; repeat constructor; cbn; intuition discriminate|]. split; [eexists; split; [reflexivity|split; reflexivity]|]. repeat split; reflexivity. Qed.

(** what a revert of one design variable gives back: the memory before the last update or setParameters, what set has stored, and after updateMap the newly mapped array as it is *)
Theorem C77_revert_after : forall F fadd updateQuat quat2r (w : world F) i x c, nth_error (fst w) i = Some x ->
  (forall v, c = SetValue v -> d_kind x = Point \/ d_kind x = Quaternion) -> (forall a, c = Remap a -> d_kind x = Vector) ->
  let w1 := step F fadd updateQuat quat2r w (Call i c) in let w2 := step F fadd updateQuat quat2r w1 (Call i Revert) in
  forall a, snd w2 a = match c with Update _ | SetParameters _ => snd w a | _ => snd w1 a end.
Proof. exact revert_after. Qed.
Print Assumptions C77_revert_after.
Example C77_revert_after_case : nth_error (fst zT) 1 = Some (mkMdv Point 1 [5; 6; 7]%Z []) /\ snd (step Z Z.add zupd zquat2r zT (Call 1 (SetParameters [1; 2; 3]%Z))) 1 = [1; 2; 3]%Z /\ snd zT 1 = [5; 6; 7]%Z.
Proof. repeat split; reflexivity. Qed.
(** updateMap: the vector is then the array mapped, and no memory is written *)
Theorem C77_updateMap : forall F fadd updateQuat quat2r (w : world F) i x a, nth_error (fst w) i = Some x -> d_kind x = Vector ->
  let w1 := step F fadd updateQuat quat2r w (Call i (Remap a)) in at_address w1 i a /\ shows F quat2r w1 i /\ forall b, snd w1 b = snd w b.
Proof. exact remapped. Qed.
Print Assumptions C77_updateMap.
Example C77_updateMap_case : let w := ([fst (make Z zquat2r znorm Vector 1 zmem)], zmem) in nth_error (fst w) 0 = Some (mkMdv Vector 1 [5; 6; 7]%Z []) /\
  mparams (nth 0 (fst (step Z Z.add zupd zquat2r w (Call 0 (Remap 2)))) (mkMdv Point 0 [] [])) zmem = [0; 0; 4; 0]%Z.
Proof. split; reflexivity. Qed.

(** the updates add up when two points map one array; the reverts run in the same order and leave the first increment in the memory *)
Theorem C77_revert_shared_refuted : forall F fadd updateQuat quat2r x y d1 d2 (m : mem F), d_kind x = Point -> d_kind y = Point -> d_at x = d_at y ->
  let u := update_all F fadd updateQuat quat2r [x; y] [d1; d2] m in let r := revert_all F quat2r (fst u) (snd u) in
  snd u (d_at x) = vplus F fadd (vplus F fadd (m (d_at x)) d1) d2 /\ snd r (d_at x) = vplus F fadd (m (d_at x)) d1.
Proof. exact shared_revert. Qed.
Print Assumptions C77_revert_shared_refuted.
Example C77_revert_shared_case : let u := update_all Z Z.add zupd zquat2r ztwo [[1; 1; 1]; [10; 10; 10]]%Z zmem in
  snd u 1 = [16; 17; 18]%Z /\ snd (revert_all Z zquat2r (fst u) (snd u)) 1 = [6; 7; 8]%Z /\ zmem 1 = [5; 6; 7]%Z.
Proof. repeat split; reflexivity. Qed.

(** transformationToExpression: the expression is the transformation whose arrays were mapped, through every program in which only its own design variable, not set, writes the quaternion;
    the translation may be written by anybody *)
Theorem C77_transformation_partial : forall F fadd updateQuat quat2r normalise aq at_ (m : mem F) es, aq <> at_ -> let w := map_transformation F quat2r normalise aq at_ m in
  left_alone F fadd updateQuat quat2r 0 w es -> let w' := runs F fadd updateQuat quat2r w es in expression_value w' = Some (quat2r (snd w' aq), snd w' at_).
Proof. exact transformation_shown. Qed.
Print Assumptions C77_transformation_partial.
(** a caller who assigns another transformation to the mapped one gets the new translation with the old rotation *)
Theorem C77_transformation_refuted : forall F fadd updateQuat quat2r normalise aq at_ (m : mem F) q t, aq <> at_ ->
  let w' := runs F fadd updateQuat quat2r (map_transformation F quat2r normalise aq at_ m) [Write aq q; Write at_ t] in
  snd w' aq = q /\ snd w' at_ = t /\ expression_value w' = Some (quat2r (m aq), t).
Proof. exact transformation_mixed. Qed.
Print Assumptions C77_transformation_refuted.
Example C77_transformation_case : expression_value (runs Z Z.add zupd zquat2r zT [Write 0 [1; 0; 0; 0]%Z; Write 1 [0; 0; 9]%Z]) = Some ([1; 0; 0; 0; 1; 0; 0; 0; 1]%Z, [0; 0; 9]%Z) /\ zquat2r [1; 0; 0; 0]%Z = [1; 0; 0; 0; -1; 0; 0; 0; -1]%Z.
Proof. split; reflexivity. Qed.
