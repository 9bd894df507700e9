(** * C66: the error terms shipped with the libraries *)
From Coq Require Import Arith List ZArith NArith Bool Reals Lra Lia.
From Verif Require Import Lib_Ring Lib_Real Lib_Res MatrixStack_Model DesignVar_Base Jacobian_Model Jacobian_Spec Scalar_Model Scalar_Spec Geo_Model Geo_Spec Geo_Toy Terms_Model Terms_Spec Terms_Proofs Terms_Proofs2.
Import ListNotations.
Local Open Scope R_scope.

(** C66. For every error term class of the libraries, every choice of design variables (also the same one twice) and every state in the domain of the term:
    error and Jacobians can be evaluated, and the container holds the derivatives of the error that was just evaluated. *)
Theorem C66_prior : forall al x hat_x s, (0 < al)%nat -> scalars [x] -> jacobians_right al [x] (prior_error x hat_x) (prior_calls x) s.
Proof. exact prior_right. Qed.
Print Assumptions C66_prior.
Example C66_prior_ex : scalars [tA]. Proof. exact toy_scalars1. Qed.
Theorem C66_motion : forall al x_k x_kp1 u s, (0 < al)%nat -> scalars [x_k; x_kp1] -> jacobians_right al [x_k; x_kp1] (motion_error x_k x_kp1 u) (motion_calls x_k x_kp1) s.
Proof. exact motion_right. Qed.
Print Assumptions C66_motion.
Example C66_motion_ex : scalars [tA; tB]. Proof. exact toy_scalars2. Qed.
Theorem C66_observation : forall al x_k w y s, (0 < al)%nat -> scalars [x_k; w] -> xval w s <> xval x_k s ->
  jacobians_right al [x_k; w] (observation_error x_k w y) (observation_calls x_k w) s.
Proof. exact observation_right. Qed.
Print Assumptions C66_observation.
Example C66_observation_ex : scalars [tA; tB] /\ xval tB (toy_s2 1 3) <> xval tA (toy_s2 1 3).
Proof. split; [exact toy_scalars2|cbn; unfold xval, toy_s2; cbn; lra]. Qed.

(** L1Regularizer. The Jacobian row is a subgradient of beta * sum |x| at every state: the linear model never lies above the error. *)
Theorem C66_l1_subgradient : forall al dvs beta s, (0 < al)%nat -> (N.of_nat (1 + al) < 4294967296)%N -> scalars dvs -> 0 <= beta ->
  exists v ops c, l1_updateRawError (l1_new dvs beta) (Some dvs) s = Ok v /\ l1_evaluateRawJacobians (l1_new dvs beta) (Some dvs) s = Ok ops /\ jc_run _ sp_addJ al (sp_init 1) ops = Ok c /\
    forall s' v' l, l1_updateRawError (l1_new dvs beta) (Some dvs) s' = Ok v' -> each_active dvs l ->
      v + dsum l (fun d => jacobian_entry (jc_store c) d 0 0 * (xval d s' - xval d s)) <= v'.
Proof. exact l1_subgradient. Qed.
Print Assumptions C66_l1_subgradient.
Example C66_l1_subgradient_ex : scalars [tA; tB; tA] /\ each_active [tA; tB; tA] [tB; tA].
Proof.
  split; [exact toy_scalars3|]. split.
  - constructor; [intros [H|[]]; discriminate H|constructor; [intros []|constructor]].
  - intros d. split; [intros [<-|[<-|[]]]; cbn; auto|intros ([<-|[<-|[<-|[]]]] & _); cbn; auto].
Qed.
(** Away from zero it is the derivative. *)
Theorem C66_l1_derivative : forall al dvs beta s, (0 < al)%nat -> (N.of_nat (1 + al) < 4294967296)%N -> scalars dvs ->
  exists ops c, l1_evaluateRawJacobians (l1_new dvs beta) (Some dvs) s = Ok ops /\ jc_run _ sp_addJ al (sp_init 1) ops = Ok c /\
    forall d, In d dvs -> dv_active d = true -> xval d s <> 0 -> partial (l1_updateRawError (l1_new dvs beta) (Some dvs)) s d 0 (jacobian_entry (jc_store c) d 0 0).
Proof. exact l1_derivative. Qed.
Print Assumptions C66_l1_derivative.
Example C66_l1_derivative_ex : scalars [tA; tB; tA] /\ xval tA (toy_s2 (-1) 3) <> 0.
Proof. split; [exact toy_scalars3|cbn; unfold xval, toy_s2; cbn; lra]. Qed.
(** The error depends on reported design variables only, as long as the caller leaves the vector alone. *)
Theorem C66_l1_reported_partial : forall dvs beta s s', (forall d, In d (l1_getDesignVariables (l1_new dvs beta)) -> xval d s = xval d s') ->
  l1_updateRawError (l1_new dvs beta) (Some dvs) s = l1_updateRawError (l1_new dvs beta) (Some dvs) s'.
Proof. exact l1_reported_ok. Qed.
Print Assumptions C66_l1_reported_partial.
Example C66_l1_reported_ex : forall d, In d (l1_getDesignVariables (l1_new [tA] 1)) -> xval d (toy_s2 2 5) = xval d (toy_s2 2 7).
Proof. intros d [<-|[]]. reflexivity. Qed.
(** The term keeps a reference to the vector of the caller: after the caller adds an element the error depends on a design variable that is not reported. *)
Theorem C66_l1_reference_refuted : ~ (forall dvs dvs' beta s s', (forall d, In d (l1_getDesignVariables (l1_new dvs beta)) -> xval d s = xval d s') ->
  l1_updateRawError (l1_new dvs beta) (Some dvs') s = l1_updateRawError (l1_new dvs beta) (Some dvs') s').
Proof. exact l1_reference. Qed.
Print Assumptions C66_l1_reference_refuted.
(** At zero no Jacobian is the derivative. *)
Theorem C66_l1_kink_refuted : ~ (forall al dvs beta s, (0 < al)%nat -> (N.of_nat (1 + al) < 4294967296)%N -> scalars dvs -> 0 < beta ->
  jacobians_right al dvs (l1_updateRawError (l1_new dvs beta) (Some dvs)) (l1_evaluateRawJacobians (l1_new dvs beta) (Some dvs)) s).
Proof. exact l1_kink. Qed.
Print Assumptions C66_l1_kink_refuted.

(** ErrorTermTransformation, for every transformation expression. The Jacobians are taken from the object [t'] that evaluateError leaves behind.
    Missing: Jacobians at another state than the one of the last evaluateError, see the refuted statement below. *)
Theorem C66_transformation_partial : forall X par_dom kinds s al, kinematics_ok X par_dom -> state_ok kinds s -> (0 < al)%nat ->
  forall t, txwf kinds (tr_T t) -> txdom X par_dom (tr_T t) s -> rigid (tr_prior_inv t) -> (forall T, txval X (tr_T t) s = Ok T -> par_dom (mmul 4 T (tr_prior_inv t))) ->
  stack_room 6 al (txwidth (tr_T t)) (S (txdepth (tr_T t))) -> wf_dvs (txdvs (tr_T t)) ->
  exists t' e chi ops c, tr_evaluateError X t s = Ok (t', e, chi) /\ tr_calls X t' s = Ok ops /\ jc_run _ sp_addJ al (sp_init 6) ops = Ok c /\
    forall d i j, In d (txdvs (tr_T t)) -> dv_active d = true -> (i < 6)%nat -> (j < dv_dim d)%nat ->
      gpartial X kinds (fun s => do r <- tr_evaluateError X t s; Ok (snd (fst r) i)) s d j (jacobian_entry (jc_store c) d i j).
Proof. exact tr_right. Qed.
Print Assumptions C66_transformation_partial.
Example C66_transformation_ex : kinematics_ok toy_kin (fun _ => True) /\ state_ok toy_kinds toy_st /\ txwf toy_kinds toy_t /\ txdom toy_kin (fun _ => True) toy_t toy_st /\ rigid toyQ /\
  stack_room 6 16 (txwidth toy_t) (S (txdepth toy_t)) /\ wf_dvs (txdvs toy_t) /\ In gR (txdvs toy_t).
Proof. exact toy_tr_hyps. Qed.
(** The error is zero exactly when the transformation equals the prior P. *)
Theorem C66_transformation_zero : forall X P Q T, angle_faithful X -> rigid T -> rigid P -> rigid Q -> inverse_of P Q ->
  ((forall i, (i < 6)%nat -> tr_vector X (mmul 4 T Q) i = 0) <-> meq 4 4 T P).
Proof. exact tr_zero. Qed.
Print Assumptions C66_transformation_zero.
Example C66_transformation_zero_ex : angle_faithful toy_angle /\ inverse_of (mk_T mid (fun i => if (i =? 0)%nat then -1 else 0)) toyQ.
Proof. split; [exact toy_angle_faithful|exact toy_inverse]. Qed.
(** The constructor with two weights: the rotation weight acts on the rotation part, the translation weight on the translation part. *)
Theorem C66_transformation_weights : forall X T Q weightRotation weightTranslation s t' e chi, tr_evaluateError X (tr_new_weights T Q weightRotation weightTranslation) s = Ok (t', e, chi) ->
  chi = weightTranslation * vdot 3 e e + weightRotation * vdot 3 (fun i => e (3 + i)%nat) (fun i => e (3 + i)%nat).
Proof. exact tr_weights. Qed.
Print Assumptions C66_transformation_weights.
Example C66_transformation_weights_ex : exists r, tr_evaluateError toy_kin (tr_new_weights toy_t toyQ 2 3) toy_st = Ok r.
Proof. eexists. reflexivity. Qed.
(** After an evaluation at one state the Jacobians at another state (for instance after a step was taken back) are wrong: they use the error matrix of the evaluation. *)
Theorem C66_transformation_stale_refuted : ~ (forall X par_dom kinds s0 s al t t0 e0 chi0, kinematics_ok X par_dom -> state_ok kinds s0 -> state_ok kinds s -> (0 < al)%nat ->
  txwf kinds (tr_T t) -> txdom X par_dom (tr_T t) s -> rigid (tr_prior_inv t) ->
  (forall T, txval X (tr_T t) s = Ok T -> par_dom (mmul 4 T (tr_prior_inv t))) -> stack_room 6 al (txwidth (tr_T t)) (S (txdepth (tr_T t))) -> wf_dvs (txdvs (tr_T t)) ->
  tr_evaluateError X t s0 = Ok (t0, e0, chi0) ->
  exists ops c, tr_calls X t0 s = Ok ops /\ jc_run _ sp_addJ al (sp_init 6) ops = Ok c /\
    forall d i j, In d (txdvs (tr_T t)) -> dv_active d = true -> (i < 6)%nat -> (j < dv_dim d)%nat ->
      gpartial X kinds (fun s => do r <- tr_evaluateError X t s; Ok (snd (fst r) i)) s d j (jacobian_entry (jc_store c) d i j)).
Proof. exact tr_stale. Qed.
Print Assumptions C66_transformation_stale_refuted.
