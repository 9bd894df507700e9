(** * Minimal differences (proofs only) *)
From Coq Require Import Arith Lia List ZArith NArith Bool Reals Lra.
From Verif Require Import Lib_Ring Lib_Real Lib_Res MatrixStack_Model MatrixStack_Spec DesignVar_Base Jacobian_Model Jacobian_Spec Expr_Base Scalar_Model Scalar_Spec Scalar_Calc Scalar_Proofs Scalar_Proofs2
  Geo_Model Geo_Spec Quat_Model Quat_Spec Quat_Proofs MinDiff_Model MinDiff_Spec.
Import ListNotations.
Local Open Scope R_scope.

Ltac comp4 i Hi := destruct i as [|[|[|[|i]]]]; [| | | |exfalso; lia].
Lemma q_assoc : forall a b c i, (i < 4)%nat -> qplus (qplus a b) c i = qplus a (qplus b c) i.
Proof. intros a b c i Hi. comp4 i Hi; unfold qplus; cbn; ring. Qed.
Lemma q_one : forall q i, (i < 4)%nat -> qplus quat_one q i = q i.
Proof. intros q i Hi. comp4 i Hi; unfold qplus, quat_one; cbn; ring. Qed.
Lemma q_one_r : forall q i, (i < 4)%nat -> qplus q quat_one i = q i.
Proof. intros q i Hi. comp4 i Hi; unfold qplus, quat_one; cbn; ring. Qed.
Lemma q_inv : forall q, unit_quat q -> forall i, (i < 4)%nat -> qplus q (quatInv q) i = quat_one i.
Proof. intros q H i Hi. unfold unit_quat in H. comp4 i Hi; unfold qplus, quatInv, quat_one; cbn; try ring. lra. Qed.
Lemma q_inv_l : forall q, unit_quat q -> forall i, (i < 4)%nat -> qplus (quatInv q) q i = quat_one i.
Proof. intros q H i Hi. unfold unit_quat in H. comp4 i Hi; unfold qplus, quatInv, quat_one; cbn; try ring. lra. Qed.
Lemma q_ext : forall a a' b b', (forall i, (i < 4)%nat -> a i = a' i) -> (forall i, (i < 4)%nat -> b i = b' i) -> forall i, qplus a b i = qplus a' b' i.
Proof. intros a a' b b' Ha Hb i. destruct i as [|[|[|i]]]; unfold qplus; rewrite !Ha, !Hb by lia; reflexivity. Qed.
Lemma inv_unit : forall q, unit_quat q -> unit_quat (quatInv q).
Proof. intros q H. unfold unit_quat, quatInv in *. cbn. lra. Qed.
(* qplus d q times the inverse of p is d applied to the evaluation point *)
Lemma q_shift : forall d q p i, (i < 4)%nat -> qplus (qplus d q) (quatInv p) i = qplus d (qplus q (quatInv p)) i.
Proof. intros. apply q_assoc. auto. Qed.

Section Proofs.
  Variable X : qlogk.
  Variable qdom ddom : vec R -> Prop.
  Hypothesis H : qlog_ok X qdom ddom.
  Local Notation unit_aa := (proj1 H).

  Lemma log_ext : forall q q' i, (forall k, (k < 4)%nat -> q k = q' k) -> (i < 3)%nat -> qk_log X q i = qk_log X q' i.
  Proof. destruct H as (_ & _ & _ & E & _). exact E. Qed.

  Lemma getP_ok : forall v, md_wf v -> xhat_ok v (md_getParameters v).
  Proof. intros v W. split; [reflexivity|]. split; [reflexivity|]. intros Q. destruct (W Q) as (U & _). exact U. Qed.

  Lemma check_ok : forall n x, d_rows x = n -> d_cols x = 1%nat -> size_check n x = Ok tt.
  Proof. intros n x E1 E2. unfold size_check. rewrite E1, E2, Nat.eqb_refl. reflexivity. Qed.

  (* the difference of the plain classes *)
  Lemma plain_value : forall v x out, plain (md_kind v) -> xhat_ok v x ->
    md_difference X v x out = Ok (if quat_kind (md_kind v) then quat_diff X (md_cur v) x else vec_diff (md_size (md_kind v)) (md_cur v) x).
  Proof.
    intros v x out P (E1 & E2 & _). unfold md_difference. destruct (md_kind v) eqn:K; cbn [plain] in P; try (exfalso; exact P); cbn [quat_kind md_size coordinates] in *;
      try (rewrite check_ok by assumption; reflexivity). rewrite E1, E2. reflexivity.
  Qed.

  Lemma self : forall v out, plain (md_kind v) -> md_wf v ->
    exists e, md_difference X v (md_getParameters v) out = Ok e /\ cv_n e = md_dim (md_kind v) /\ forall i, (i < md_dim (md_kind v))%nat -> cv_at e i = 0.
  Proof.
    intros v out P W. rewrite plain_value by (auto using getP_ok). eexists. split; [reflexivity|]. unfold md_dim. destruct (quat_kind (md_kind v)) eqn:Q.
    - split; [reflexivity|]. intros i Hi. cbn [quat_diff cv_at]. destruct (W Q) as (U & _). destruct H as (_ & _ & _ & _ & H1 & _). rewrite <- (H1 i Hi). apply log_ext; auto. intros k Hk. apply q_inv; auto.
    - split; [reflexivity|]. intros i Hi. cbn. ring.
  Qed.

  Lemma update_diff : forall v d out, plain (md_kind v) -> md_wf v -> (quat_kind (md_kind v) = true -> ddom d) ->
    exists e, md_difference X (md_update X v d) (md_getParameters v) out = Ok e /\ cv_n e = md_dim (md_kind v) /\ forall i, (i < md_dim (md_kind v))%nat -> cv_at e i = d i.
  Proof.
    intros v d out P W D. rewrite plain_value; [|exact P|exact (getP_ok v W)]. eexists. split; [reflexivity|]. cbn [md_update md_kind md_cur]. unfold md_dim. destruct (quat_kind (md_kind v)) eqn:Q.
    - split; [reflexivity|]. intros i Hi. cbn [quat_diff cv_at]. destruct (W Q) as (U & _). destruct H as (_ & _ & HL & _). rewrite <- (HL d i (D eq_refl) Hi). apply log_ext; auto. intros k Hk.
      unfold eval_point, updateQuat. rewrite q_assoc by auto. rewrite (q_ext _ (qk_aa2q X d) _ quat_one); [apply q_one_r; auto|auto|]. intros i0 Hi0. apply q_inv; auto.
    - split; [reflexivity|]. intros i Hi. cbn. ring.
  Qed.

  (* a zero difference means the same value *)
  Lemma zero_only : forall v x out e, plain (md_kind v) -> md_wf v -> xhat_ok v x -> diff_dom qdom v x -> md_difference X v x out = Ok e -> (forall i, (i < md_dim (md_kind v))%nat -> cv_at e i = 0) ->
    forall i, (i < md_size (md_kind v))%nat -> md_cur v i = d_at x i 0%nat.
  Proof.
    intros v x out e P W Hx Dm E Z i Hi. rewrite plain_value in E by auto. injection E as <-. unfold md_dim in Z. destruct (quat_kind (md_kind v)) eqn:Q.
    - assert (N4 : md_size (md_kind v) = 4%nat) by (destruct (md_kind v); try discriminate Q; reflexivity). rewrite N4 in Hi.
      destruct H as (_ & _ & _ & _ & _ & HZ & _). pose proof (HZ _ (Dm Q) Z) as O. destruct Hx as (_ & _ & Ux). specialize (Ux Q). set (y := fun i => d_at x i 0%nat) in *.
      rewrite <- (q_one_r (md_cur v) i Hi). rewrite (q_ext (md_cur v) (md_cur v) quat_one (qplus (quatInv y) y)); [|auto|intros; symmetry; apply q_inv_l; auto].
      rewrite <- q_assoc by auto. rewrite (q_ext _ quat_one y y); [apply (q_one y); auto|exact O|auto].
    - specialize (Z i Hi). cbn in Z. lra.
  Qed.

  Lemma jac_diff : forall v x out outJ, plain (md_kind v) -> md_wf v -> xhat_ok v x -> diff_dom qdom v x ->
    exists e J, md_differenceAndJacobian X v x out outJ = Ok (e, J) /\ md_difference X v x out = Ok e /\ d_rows J = md_dim (md_kind v) /\ d_cols J = md_dim (md_kind v) /\
      forall i j, (i < md_dim (md_kind v))%nat -> (j < md_dim (md_kind v))%nat ->
        rder (fun h => do e <- md_difference X (md_update X v (axis_vec j h)) x out; Ok (cv_at e i)) 0 (d_at J i j).
  Proof.
    intros v x out outJ P W Hx Dm. pose proof (plain_value v x out P Hx) as E. unfold md_differenceAndJacobian. rewrite E. cbn [bind]. eexists _, _. split; [reflexivity|]. split; [reflexivity|].
    assert (EU : forall d, md_difference X (md_update X v d) x out = Ok (if quat_kind (md_kind v) then quat_diff X (md_cur (md_update X v d)) x else vec_diff (md_size (md_kind v)) (md_cur (md_update X v d)) x)).
    { intros d. apply (plain_value (md_update X v d) x out); [exact P|exact Hx]. }
    assert (QJ : quat_kind (md_kind v) = true -> forall i j, (i < 3)%nat -> (j < 3)%nat ->
       derivable_pt_lim (fun h => qk_log X (eval_point (updateQuat (qk_aa2q X) (md_cur v) (axis_vec j h)) x) i) 0 (d_at (quat_diff_J X false (md_cur v) x) i j) /\
       derivable_pt_lim (fun h => qk_log X (eval_point (updateQuat (qk_aa2q X) (md_cur v) (axis_vec j h)) x) i) 0 (d_at (quat_diff_J X true (md_cur v) x) i j)).
    { intros Q i j Hi Hj. destruct (W Q) as (U & _). destruct Hx as (_ & _ & Ux). specialize (Ux Q). specialize (Dm Q). set (p := eval_point (md_cur v) x). change (qdom p) in Dm.
      assert (Up : unit_quat p) by (apply qplus_unit; [exact U|apply inv_unit; exact Ux]).
      destruct H as (UA & A0 & _ & _ & _ & _ & HD & HJ). set (c := fun h => updateQuat (qk_aa2q X) p (axis_vec j h)).
      assert (C0 : forall k, (k < 4)%nat -> c 0 k = p k).
      { intros k Hk. unfold c, updateQuat. rewrite (q_ext _ quat_one _ p); [apply q_one; auto| |auto]. apply A0. intros i0 _. unfold axis_vec. destruct (i0 =? j)%nat; reflexivity. }
      set (c2 := fun h => if Req_EM_T h 0 then p else c h).
      assert (CC : quat_curve c2 (fun k => qk_J X p k j)).
      { split.
        - intros h. unfold c2. destruct Req_EM_T; auto. apply qplus_unit; auto.
        - intros k Hk. apply (der_ext (fun h => c h k)); [|apply HJ; auto]. intros h. unfold c2. destruct Req_EM_T as [->|]; auto. }
      assert (P0 : c2 0 = p) by (unfold c2; destruct Req_EM_T as [_|N0]; [reflexivity|exfalso; apply N0; reflexivity]).
      assert (EE : forall h, qk_log X (c2 h) i = qk_log X (eval_point (updateQuat (qk_aa2q X) (md_cur v) (axis_vec j h)) x) i).
      { intros h. apply log_ext; auto. intros k Hk. unfold eval_point. 
        transitivity (c h k); [unfold c2; destruct Req_EM_T as [->|]; auto; symmetry; auto|]. unfold c, updateQuat, p, eval_point. symmetry. apply q_assoc. auto. }
      destruct (HD c2 _ i CC ltac:(rewrite P0; exact Dm) Hi) as (D1 & D2). rewrite P0 in D1, D2.
      split; [apply (der_ext _ _ _ _ EE D1)|apply (der_ext _ _ _ _ EE D2)]. }
    assert (VJ : quat_kind (md_kind v) = false -> forall i j, derivable_pt_lim (fun h => md_cur v i + axis_vec j h i - d_at x i 0%nat) 0 (mid i j)).
    { intros Q i j. unfold axis_vec, mid, delta. destruct (i =? j)%nat.
      - apply (der_eq _ _ (0 + 1 - 0)); [change (0 + 1 - 0 = 1); ring|]. apply der_minus; [apply der_plus; [apply der_const|apply der_id]|apply der_const].
      - apply (der_eq _ _ (0 + 0 - 0)); [change (0 + 0 - 0 = 0); ring|]. apply der_minus; [apply der_plus; apply der_const|apply der_const]. }
    assert (DD : forall i j l, derivable_pt_lim (fun h => cv_at (if quat_kind (md_kind v) then quat_diff X (md_cur (md_update X v (axis_vec j h))) x else vec_diff (md_size (md_kind v)) (md_cur (md_update X v (axis_vec j h))) x) i) 0 l ->
       rder (fun h => do e <- md_difference X (md_update X v (axis_vec j h)) x out; Ok (cv_at e i)) 0 l).
    { intros i j l D. apply (rder_ext (fun h => Ok (cv_at (if quat_kind (md_kind v) then quat_diff X (md_cur (md_update X v (axis_vec j h))) x else vec_diff (md_size (md_kind v)) (md_cur (md_update X v (axis_vec j h))) x) i))); [intros h; rewrite EU; reflexivity|].
      apply rder_total. exact D. }
    destruct (md_kind v) eqn:K; cbn [plain] in P; try (exfalso; exact P); cbn [quat_kind md_size md_dim coordinates] in *;
      (split; [reflexivity|]); (split; [reflexivity|]); intros i j Hi Hj; apply DD; unfold md_update; rewrite K; cbn [quat_kind md_cur quat_diff vec_diff cv_at].
    - exact (VJ eq_refl i j).
    - exact (VJ eq_refl i j).
    - exact (VJ eq_refl i j).
    - exact (VJ eq_refl i j).
    - exact (VJ eq_refl i j).
    - exact (proj1 (QJ eq_refl i j Hi Hj)).
    - exact (proj2 (QJ eq_refl i j Hi Hj)).
  Qed.

  (* the expression node *)
  Lemma node_right : forall al d v x, (0 < al)%nat -> plain (md_kind v) -> md_wf v -> xhat_ok v x -> diff_dom qdom v x -> wf_dvs [d] -> dv_active d = true -> dv_dim d = md_dim (md_kind v) ->
    (N.of_nat (dv_dim d) < 65536)%N ->
    exists e ops c, mde_evaluate X (dv_dim d) v x = Ok e /\ mde_calls X d v x = Ok ops /\ jc_run _ sp_addJ al (sp_init (dv_dim d)) ops = Ok c /\
      forall i j, (i < dv_dim d)%nat -> (j < dv_dim d)%nat -> rder (fun h => do e <- mde_evaluate X (dv_dim d) (md_update X v (axis_vec j h)) x; Ok (cv_at e i)) 0 (jacobian_entry (jc_store c) d i j).
  Proof.
    intros al d v x Ha P W Hx Dm Wd Ad Ed Hn. destruct (jac_diff v x (mkCol 0 (fun _ => 0)) (mkD 0 0 (fun _ _ => 0)) P W Hx Dm) as (e & J & E1 & E2 & R1 & R2 & D).
    assert (SZ : forall v', md_kind v' = md_kind v -> forall e', md_difference X v' x (mkCol 0 (fun _ => 0)) = Ok e' -> cv_n e' = dv_dim d).
    { intros v' K' e' E'. rewrite plain_value in E' by (rewrite K' || (unfold xhat_ok; rewrite K'); auto). injection E' as <-. rewrite K', Ed. unfold md_dim. destruct (quat_kind (md_kind v)); reflexivity. }
    assert (EV : forall v', md_kind v' = md_kind v -> mde_evaluate X (dv_dim d) v' x = md_difference X v' x (mkCol 0 (fun _ => 0))).
    { intros v' K'. unfold mde_evaluate. destruct (md_difference X v' x (mkCol 0 (fun _ => 0))) as [e'| |] eqn:E'; cbn [bind]; auto. rewrite (SZ v' K' e' E'), Nat.eqb_refl. reflexivity. }
    unfold mde_calls. rewrite E1. cbn [bind snd].
    assert (EJ : J = mkD (dv_dim d) (dv_dim d) (d_at J)). { destruct J as [r c a]. cbn in R1, R2 |- *. rewrite Ed, <- R1 at 1. rewrite Ed. congruence. }
    assert (C : contributes (dv_dim d) 1 0 [CAdd d J] (fun d' i j => if (dv_id d =? dv_id d')%nat then d_at J i j else 0)).
    { rewrite EJ. exact (@con_add R RRing (dv_dim d) 1 0 d (d_at J)). }
    assert (Ro : @room R (dv_dim d) al 1 0 []) by (split; [reflexivity|]; split; [rewrite Nat.mul_1_r; eapply N.lt_trans; [exact Hn|reflexivity]|cbn; reflexivity]).
    destruct (contributes_entry (dv_dim d) 1 0 [CAdd d J] _ al [d] C Ha Hn Ro Wd ltac:(intros y [<-|[]]; left; auto)) as (c & Er & _ & En).
    exists e, [CAdd d J], c. split; [rewrite EV by auto; exact E2|]. split; [reflexivity|]. split; [exact Er|]. intros i j Hi Hj.
    rewrite entry_R, (En d i j (or_introl eq_refl) Ad Hi Hj). cbn beta. rewrite Nat.eqb_refl. rewrite Ed in Hi, Hj. specialize (D i j Hi Hj).
    revert D. apply rder_ext. intros h. rewrite EV by reflexivity. reflexivity.
  Qed.
End Proofs.
