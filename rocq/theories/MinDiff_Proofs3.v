(** * The theorems of C67 in terms of [coordinates] and [freedom] *)
From Coq Require Import Arith Lia List ZArith NArith Bool Reals.
From Verif Require Import Lib_Ring Lib_Real Lib_Res MatrixStack_Model DesignVar_Base Jacobian_Model Jacobian_Spec Scalar_Model Scalar_Spec Quat_Model Quat_Spec Quat_Toy
  MinDiff_Model MinDiff_Spec MinDiff_Proofs MinDiff_Exact MinDiff_Proofs2.
Import ListNotations.
Local Open Scope R_scope.

Lemma coordinates_eq : forall k, coordinates k = md_size k.
Proof. intros []; reflexivity. Qed.
Lemma freedom_eq : forall k, freedom k = md_dim k.
Proof. intros []; reflexivity. Qed.
Lemma self_f : forall X qdom ddom, qlog_ok X qdom ddom -> forall v out, plain (md_kind v) -> md_wf v ->
  exists e, md_difference X v (md_getParameters v) out = Ok e /\ cv_n e = freedom (md_kind v) /\ forall i, (i < freedom (md_kind v))%nat -> cv_at e i = 0.
Proof. intros. rewrite ?freedom_eq, ?coordinates_eq in *. eapply self; eauto. Qed.
Lemma update_diff_f : forall X qdom ddom, qlog_ok X qdom ddom -> forall v d out, plain (md_kind v) -> md_wf v -> (quat_kind (md_kind v) = true -> ddom d) ->
  exists e, md_difference X (md_update X v d) (md_getParameters v) out = Ok e /\ cv_n e = freedom (md_kind v) /\ forall i, (i < freedom (md_kind v))%nat -> cv_at e i = d i.
Proof. intros. rewrite ?freedom_eq, ?coordinates_eq in *. eapply update_diff; eauto. Qed.
Lemma zero_only_f : forall X qdom ddom, qlog_ok X qdom ddom -> forall v x out e, plain (md_kind v) -> md_wf v -> xhat_ok v x -> diff_dom qdom v x ->
  md_difference X v x out = Ok e -> (forall i, (i < freedom (md_kind v))%nat -> cv_at e i = 0) -> forall i, (i < coordinates (md_kind v))%nat -> md_cur v i = d_at x i 0%nat.
Proof. intros. rewrite ?freedom_eq, ?coordinates_eq in *. eapply zero_only; eauto. Qed.
Lemma jac_diff_f : forall X qdom ddom, qlog_ok X qdom ddom -> forall v x out outJ, plain (md_kind v) -> md_wf v -> xhat_ok v x -> diff_dom qdom v x ->
  exists e J, md_differenceAndJacobian X v x out outJ = Ok (e, J) /\ md_difference X v x out = Ok e /\ d_rows J = freedom (md_kind v) /\ d_cols J = freedom (md_kind v) /\
    forall i j, (i < freedom (md_kind v))%nat -> (j < freedom (md_kind v))%nat ->
      rder (fun h => do e <- md_difference X (md_update X v (axis_vec j h)) x out; Ok (cv_at e i)) 0 (d_at J i j).
Proof. intros. rewrite ?freedom_eq, ?coordinates_eq in *. eapply jac_diff; eauto. Qed.
Lemma node_right_f : forall X qdom ddom, qlog_ok X qdom ddom -> forall al d v x, (0 < al)%nat -> plain (md_kind v) -> md_wf v -> xhat_ok v x -> diff_dom qdom v x ->
  wf_dvs [d] -> dv_active d = true -> dv_dim d = freedom (md_kind v) -> (N.of_nat (dv_dim d) < 65536)%N ->
  exists e ops c, mde_evaluate X (dv_dim d) v x = Ok e /\ mde_calls X d v x = Ok ops /\ jc_run _ sp_addJ al (sp_init (dv_dim d)) ops = Ok c /\
    forall i j, (i < dv_dim d)%nat -> (j < dv_dim d)%nat ->
      rder (fun h => do e <- mde_evaluate X (dv_dim d) (md_update X v (axis_vec j h)) x; Ok (cv_at e i)) 0 (jacobian_entry (jc_store c) d i j).
Proof. intros. rewrite ?freedom_eq, ?coordinates_eq in *. eapply node_right; eauto. Qed.
Lemma wrong_size_f : forall X v x out, plain (md_kind v) \/ mapped (md_kind v) -> md_kind v <> KTutorialScalar -> ~ (d_rows x = coordinates (md_kind v) /\ d_cols x = 1%nat) ->
  md_difference X v x out = Throw.
Proof. intros. rewrite ?freedom_eq, ?coordinates_eq in *. eapply wrong_size; eauto. Qed.
Lemma mapped_zero_f : forall X qdom ddom, qlog_ok X qdom ddom -> forall v d out, mapped (md_kind v) -> md_wf v ->
  exists e, md_difference X (md_update X v d) (md_getParameters v) out = Ok e /\ cv_n e = freedom (md_kind v) /\ forall i, (i < freedom (md_kind v))%nat -> cv_at e i = 0.
Proof. intros. rewrite ?freedom_eq, ?coordinates_eq in *. eapply mapped_zero; eauto. Qed.
Lemma mapped_reverted_f : forall X qdom ddom, qlog_ok X qdom ddom -> forall v out, mapped (md_kind v) -> md_wf v -> let r := md_revert v in
  exists e, md_difference X r (md_getParameters r) out = Ok e /\ cv_n e = freedom (md_kind v) /\ forall i, (i < freedom (md_kind v))%nat -> cv_at e i = 0.
Proof. intros. rewrite ?freedom_eq, ?coordinates_eq in *. eapply mapped_reverted; eauto. Qed.
Lemma mapped_bug_f : ~ (forall X qdom ddom v d out, qlog_ok X qdom ddom -> mapped (md_kind v) -> md_wf v -> ddom d ->
  exists e, md_difference X (md_update X v d) (md_getParameters v) out = Ok e /\ forall i, (i < freedom (md_kind v))%nat -> cv_at e i = d i).
Proof. intros H. apply mapped_bug. intros. rewrite <- ?freedom_eq, <- ?coordinates_eq in *. eapply H; eauto. Qed.
Lemma mapped_jac_bug_f : ~ (forall X qdom ddom v x out outJ, qlog_ok X qdom ddom -> mapped (md_kind v) -> md_wf v -> xhat_ok v x -> diff_dom qdom v x ->
  exists e J, md_differenceAndJacobian X v x out outJ = Ok (e, J) /\
    forall i j, (i < freedom (md_kind v))%nat -> (j < freedom (md_kind v))%nat -> rder (fun h => do e <- md_difference X (md_update X v (axis_vec j h)) x out; Ok (cv_at e i)) 0 (d_at J i j)).
Proof. intros H. apply mapped_jac_bug. intros. rewrite <- ?freedom_eq, <- ?coordinates_eq in *. eapply H; eauto. Qed.
(* parameters that were just set *)
Lemma same_shape : forall X v x y out, d_rows x = d_rows y -> d_cols x = d_cols y -> (forall i, d_at x i 0%nat = d_at y i 0%nat) -> plain (md_kind v) ->
  forall e, md_difference X v y out = Ok e -> exists e', md_difference X v x out = Ok e' /\ cv_n e' = cv_n e /\ forall i, cv_at e' i = cv_at e i.
Proof.
  intros X v x y out R0 C0 E P e. assert (forall n, size_check n x = size_check n y) as Sz by (intros; unfold size_check; rewrite R0, C0; auto).
  assert ((fun i => d_at x i 0%nat) = (fun i => d_at y i 0%nat)) as Ef by (apply FunctionalExtensionality.functional_extensionality; auto).
  unfold md_difference. destruct (md_kind v); cbn [plain] in P; try contradiction; rewrite ?Sz, ?R0, ?C0; try (destruct (size_check _ y); cbn [bind]; try discriminate); try (destruct (_ && _); try discriminate); intros H; injection H as <-; (eexists; split; [reflexivity|]).
  all: try (split; [reflexivity|]; intros i; unfold vec_diff; cbn; rewrite E; reflexivity).
  all: unfold quat_diff, eval_point; rewrite Ef; auto.
Qed.
Lemma set_zero_f : forall X qdom ddom, qlog_ok X qdom ddom -> forall v x out, plain (md_kind v) -> md_wf v -> xhat_ok v x ->
  (exists e, md_difference X (md_setParameters v x) x out = Ok e /\ cv_n e = freedom (md_kind v) /\ forall i, (i < freedom (md_kind v))%nat -> cv_at e i = 0) /\
  (exists e, md_difference X (md_revert (md_setParameters v x)) (md_getParameters v) out = Ok e /\ cv_n e = freedom (md_kind v) /\ forall i, (i < freedom (md_kind v))%nat -> cv_at e i = 0).
Proof.
  intros X qdom ddom Q v x out P W (H1 & H2 & H3). split.
  - destruct (self_f X qdom ddom Q (md_setParameters v x) out) as (e & E1 & E2 & E3); [exact P|intros K; split; [exact (H3 K)|exact (proj1 (W K))]|].
    eapply same_shape with (x := x) in E1; [|rewrite H1; cbn; destruct (md_kind v); reflexivity|exact H2|intros; reflexivity|exact P].
    destruct E1 as (e' & E1 & E4 & E5). exists e'. split; auto. rewrite E4. split; auto. intros i Hi. rewrite E5. auto.
  - pose proof (self_f X qdom ddom Q (md_revert (md_setParameters v x)) out P) as S. apply S. intros K. split; exact (proj1 (W K)).
Qed.
