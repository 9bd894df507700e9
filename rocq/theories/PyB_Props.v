(** * Python module: property C88

    [mrun m l]: the answers of the operations [l] on the matrix [m] and the matrix afterwards. [effects A l A']: the same operations on a dense
    matrix. [looks_like m rbi cbi A]: toDense, toDenseSymmetric, at and getBlock answer as [A] does, or with an exception if there is no such place.
    [present e h]: the callables for event [e] after the calls [h] of add and clear (PyB_Spec.v). *)
From Coq Require Import Arith List ZArith Bool.
From Verif Require Import Lib_Ring Lib_Res SBM_Model SBM_Spec SBM_Toy PyB_Model PyB_Spec PyB_Proofs PyB_Toy.
From Verif Require Optimizer2_Model Callback_Model.
Import ListNotations.

(** C88: a block matrix that is filled from Python behaves as a dense matrix, as long as the blocks have the size of their place. *)
Theorem C88_matrix_partial : forall (K : Type) (R : CRing K) rbi cbi (l : list (mop K)), layout_ok rbi -> layout_ok cbi -> Forall (fits rbi cbi) l ->
  exists A, effects rbi cbi (fun _ _ => k0) l A /\
    Forall2 (answer rbi cbi) l (fst (mrun (py_new rbi cbi true) l)) /\ looks_like (snd (mrun (py_new rbi cbi true) l)) rbi cbi A.
Proof. exact @matrix_ok. Qed.
Print Assumptions C88_matrix_partial.
Example C88_matrix_case : layout_ok lay /\ Forall (fits lay lay) session /\ fst (mrun (py_new lay lay true) session) = [Ok tt; Ok tt; Throw; Ok tt; Ok tt] /\
  py_at (snd (mrun (py_new lay lay true) (firstn 2 session))) 1 2 = Ok 11%Z /\ py_at (snd (mrun (py_new lay lay true) session)) 1 2 = Ok 0%Z /\
  py_at (snd (mrun (py_new lay lay true) session)) 2 2 = Ok 7%Z.
Proof. exact (conj lay_ok (conj session_fits (conj session_answers session_values))). Qed.

(** A block of another size is accepted; afterwards toDense and toDenseSymmetric are undefined and getBlock does not return the size of the layout. *)
Theorem C88_size_refuted : exists (rbi cbi : list nat) (o : mop Z), layout_ok rbi /\ layout_ok cbi /\ answer rbi cbi o (Ok tt) /\ fst (mstep (py_new rbi cbi true) o) = Ok tt /\
  (let m := snd (mstep (py_new rbi cbi true) o) in
   py_toDense m = UB /\ py_toDenseSymmetric m = UB /\ exists B, py_getBlock m 1 1 = Ok (2, 3, B) /\ (bsize rbi 1, bsize cbi 1) = (1, 1)).
Proof. exact wrong_size. Qed.
Print Assumptions C88_size_refuted.
(** A block that is too small is accepted as well; afterwards [at] is undefined for an element that exists. *)
Theorem C88_at_refuted : fst (mstep (py_new lay lay true) small) = Ok tt /\ py_at (snd (mstep (py_new lay lay true) small)) 1 1 = UB /\
  py_at (snd (mstep (py_new lay lay true) small)) 0 0 = Ok 1%Z.
Proof. exact too_small. Qed.
Print Assumptions C88_at_refuted.
(** isBlockSet does not test the column. *)
Theorem C88_isBlockSet_refuted : exists (rbi cbi : list nat) c, layout_ok rbi /\ layout_ok cbi /\ ~ within cbi c /\ py_isBlockSet (py_new rbi cbi true : pmat Z) 0 c = UB.
Proof. exact set_unchecked. Qed.
Print Assumptions C88_isBlockSet_refuted.
(** A matrix without storage cannot be filled: every call ends with an exception. *)
Theorem C88_no_storage : forall (K : Type) (R : CRing K) rbi cbi r c (B : dmat K), py_setBlock (py_new rbi cbi false) r c B = (Throw, py_new rbi cbi false).
Proof. exact no_storage. Qed.
Print Assumptions C88_no_storage.
Example C88_no_storage_case : py_setBlock (py_new lay lay true) 0 0 (2, 2, B00) <> (Throw, py_new lay lay true).
Proof. exact (fun H => match H in (_ = y) return (match fst y with Throw => False | _ => True end) with eq_refl => I end). Qed.

(** C88: the callables registered from Python run in the order in which they were added, each as often as the event was named; a wrong argument gives
    an exception and changes nothing, except that a list of events is registered up to the first element that is not an event. What a callable
    returns does not matter: it cannot end the optimisation. *)
Theorem C88_callbacks_partial : forall (W : Type) (f : nat -> nat -> W -> Callback_Model.proceed * W) h, Forall clean h ->
  Forall2 (fun o x => (proper o -> x = Ok tt) /\ (~ proper o -> x = Throw)) h (fst (crun Callback_Model.empty_registry h)) /\
  forall e w, Callback_Model.issueCallback (fun c => py_lambda (f c)) (snd (crun Callback_Model.empty_registry h)) e w =
      (Callback_Model.CONTINUE, fold_left (fun w c => snd (f c e w)) (present e h) w, present e h) /\
    py_num (Some e) (snd (crun Callback_Model.empty_registry h)) = Ok (length (present e h)).
Proof. exact callbacks_ok. Qed.
Print Assumptions C88_callbacks_partial.
Example C88_callbacks_case : Forall clean history /\ present 1 history = [7; 7; 8] /\ present 2 history = [].
Proof. exact (conj history_clean history_present). Qed.
Theorem C88_add_refuted : exists a c e, fst (py_add true a c Callback_Model.empty_registry) = Throw /\
  snd (py_add true a c Callback_Model.empty_registry) e <> Callback_Model.empty_registry e.
Proof. exact half_added. Qed.
Print Assumptions C88_add_refuted.
Theorem C88_verdict_refuted : exists (f : nat -> nat -> nat -> Callback_Model.proceed * nat) h e w c, Forall clean h /\ In c (present e h) /\
  (forall w, fst (f c e w) = Callback_Model.FAIL) /\
  fst (fst (Callback_Model.issueCallback (fun c => py_lambda (f c)) (snd (crun Callback_Model.empty_registry h)) e w)) = Callback_Model.CONTINUE /\
  fst (fst (Callback_Model.issueCallback (fun c => Callback_Model.FVerdict (f c)) (snd (crun Callback_Model.empty_registry h)) e w)) = Callback_Model.FAIL.
Proof. exact no_stop. Qed.
Print Assumptions C88_verdict_refuted.

(** C88: the smoothing factor can be read and written; isBurnIn can neither be read nor written (getter and setter are exchanged). *)
Theorem C88_property : forall (V T : Type) (s : sampler V T) v, py_read prop_factor s = Ok (sa_factor s) /\
  exists s', py_write prop_factor s v = Ok s' /\ py_read prop_factor s' = Ok v /\ sa_burnIn s' = sa_burnIn s /\ sa_rest s' = sa_rest s.
Proof. exact factor_ok. Qed.
Print Assumptions C88_property.
Example C88_property_case : py_read prop_factor (mkSampler 3 true tt) = Ok 3.
Proof. exact eq_refl. Qed.
Theorem C88_isBurnIn_refuted : forall (V T : Type) (s : sampler V T) b, py_read prop_isBurnIn s = Throw /\ py_write prop_isBurnIn s b = Throw.
Proof. exact burnIn_bad. Qed.
Print Assumptions C88_isBurnIn_refuted.

(** The status MAX_ITERATIONS, and only this one, has no name in Python. *)
Theorem C88_status_refuted : forall c, ~ In c py_status_values <-> c = Optimizer2_Model.MAX_ITERATIONS.
Proof. exact no_name. Qed.
Print Assumptions C88_status_refuted.
