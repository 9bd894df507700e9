(** * What a sequence of container calls contributes (proofs only)

    Used for all expression nodes: the calls made by evaluateJacobians, as events of Jacobian_Spec. *)
From Coq Require Import Arith Lia List ZArith NArith Bool Ring.
From Verif Require Import Lib_Ring Lib_Res MatrixStack_Model MatrixStack_Spec DesignVar_Base Jacobian_Model Jacobian_Spec Jacobian_Proofs Jacobian_Proofs2 Jacobian_Proofs3.
Import ListNotations.

(* the stack has room for [depth] further matrices with at most [w] columns: limits of the header fields, see C02 *)
Definition room {K} (n al w depth : nat) (fs : list (@factor K)) : Prop :=
  (N.of_nat w < 65536)%N /\ (N.of_nat (n * w) < 2147483648)%N /\ (N.of_nat (space n al fs) + N.of_nat depth * N.of_nat (n * w + al) < 4294967296)%N.

Section Base.
  Context {K : Type} {R : CRing K}.
  Add Ring Kring_expr : (@kring K R).
  Notation dvar := (dvar K).

  (* the call as an event *)
  Definition ev_of (o : @cop K) : @event K :=
    match o with CApply m => EApply (FMat (d_rows m) (d_cols m) (d_at m)) | CApplyS a => EApply (FScal a) | CEnd => EEnd | CAdd d J => EAdd d (d_rows J) (d_at J) | CAddId d => EAddId d end.
  (* Jacobians that are added have as many columns as the design variable has dimensions *)
  Definition ops_ok (ops : list (@cop K)) : Prop := Forall (fun o => match o with CAdd d J => d_cols J = dv_dim d | _ => True end) ops.
  Lemma ev_cop : forall ops, ops_ok ops -> map cop_of (map ev_of ops) = ops.
  Proof.
    intros ops H. induction H as [|o ops Ho H IH]; auto. cbn [map]. rewrite IH. f_equal. destruct o as [m|a| |d J|d]; auto; cbn [ev_of cop_of].
    - destruct m; auto.
    - rewrite <- Ho. destruct J; auto.
  Qed.
  Lemma cruns_app : forall n al fs e1 c1 fs1, cruns n al fs e1 c1 fs1 -> forall e2 c2 fs2, cruns n al fs1 e2 c2 fs2 -> cruns n al fs (e1 ++ e2) (c1 ++ c2) fs2.
  Proof. intros n al fs e1 c1 fs1 H. induction H; intros e2 c2 fs2 H2; cbn [app]; auto; econstructor; eauto. Qed.
  Lemma total_app : forall (c1 c2 : list (@contribution K)) d i j, total (c1 ++ c2) d i j = kadd (total c1 d i j) (total c2 d i j).
  Proof. intros. unfold total. rewrite filter_app, lsum_app. auto. Qed.

  (* design variables with the same identity have the same dimension *)
  Definition same_dim (d : dvar) (ops : list (@cop K)) : Prop := Forall (fun o => match o with CAdd d0 _ | CAddId d0 => dv_id d0 = dv_id d -> dv_dim d0 = dv_dim d | _ => True end) ops.
  (* whatever the chain of factors in force, the calls add to the Jacobian of [d] the chain times [D d] and leave the chain as it was *)
  Definition contributes (m w depth : nat) (ops : list (@cop K)) (D : dvar -> mat K) : Prop :=
    ops_ok ops /\ forall n al fs, prod_cols n fs = m -> room n al w depth fs -> exists cs, cruns n al fs (map ev_of ops) cs fs /\
      forall d i j, same_dim d ops -> j < dv_dim d -> total cs d i j = ksum m (fun k => kmul (prod_mat n fs i k) (D d k j)).
  Definition in_scope (ops : list (@cop K)) (o : @cop K) : list (@cop K) := o :: ops ++ [CEnd].

  Lemma con_nil : forall m w depth, contributes m w depth [] (fun _ _ _ => k0).
  Proof. intros m w depth. split; [constructor|]. intros n al fs P H. exists []. split; [constructor|]. intros d i j _ _. rewrite ksum_zero; auto. intros. ring. Qed.
  Lemma con_app : forall m w depth o1 o2 D1 D2, contributes m w depth o1 D1 -> contributes m w depth o2 D2 -> contributes m w depth (o1 ++ o2) (fun d i j => kadd (D1 d i j) (D2 d i j)).
  Proof.
    intros m w depth o1 o2 D1 D2 (K1 & H1) (K2 & H2). split; [apply Forall_app; auto|]. intros n al fs P H. destruct (H1 n al fs P H) as (c1 & R1 & T1). destruct (H2 n al fs P H) as (c2 & R2 & T2).
    exists (c1 ++ c2). split; [rewrite map_app; eapply cruns_app; eauto|]. intros d i j Sd Hj. apply Forall_app in Sd. destruct Sd. rewrite total_app, T1, T2 by auto. rewrite <- ksum_add. apply ksum_ext. intros. ring.
  Qed.
  Lemma con_ext : forall m w depth ops D1 D2, (forall d i j, i < m -> D1 d i j = D2 d i j) -> contributes m w depth ops D1 -> contributes m w depth ops D2.
  Proof. intros m w depth ops D1 D2 E (K1 & H). split; auto. intros n al fs P Q. destruct (H n al fs P Q) as (cs & R1 & T). exists cs. split; auto. intros d i j Sd Hj. rewrite T by auto. apply ksum_ext. intros. rewrite E by auto. auto. Qed.
  Lemma con_weaken : forall m w w' depth depth' ops D, w <= w' -> depth <= depth' -> contributes m w depth ops D -> contributes m w' depth' ops D.
  Proof.
    intros m w w' depth depth' ops D L1 L2 (K1 & H). split; auto. intros n al fs P (A & B & C). apply H; auto. split; [lia|]. split; [nia|].
    assert (n * w + al <= n * w' + al) by nia. assert (N.of_nat depth * N.of_nat (n * w + al) <= N.of_nat depth' * N.of_nat (n * w' + al))%N by (apply N.mul_le_mono; lia). lia.
  Qed.
  Lemma fits_push : forall n al w depth (fs : list (@factor K)) f, prod_cols n (f :: fs) <= w -> room n al w (S depth) fs -> fits n al (f :: fs) /\ room n al w depth (f :: fs).
  Proof.
    intros n al w depth fs f L (A & B & C). assert (Sp : space n al (f :: fs) = n * prod_cols n (f :: fs) + al + space n al fs) by reflexivity. assert (G : n * prod_cols n (f :: fs) <= n * w) by nia.
    rewrite Nat2N.inj_succ in C. rewrite N.mul_succ_l in C. unfold fits, room. rewrite Sp. repeat split; lia.
  Qed.
  Lemma same_scope : forall d ops o, same_dim d (in_scope ops o) -> same_dim d ops.
  Proof. intros d ops o H. apply Forall_inv_tail in H. apply Forall_app in H. apply H. Qed.
  Lemma con_scal : forall m w depth ops D a, m <= w -> contributes m w depth ops D -> contributes m w (S depth) (in_scope ops (CApplyS a)) (fun d i j => kmul a (D d i j)).
  Proof.
    intros m w depth ops D a L (K1 & H). split. { constructor; [exact I|]. apply Forall_app; split; [exact K1|repeat constructor]. } intros n al fs P Q. destruct (fits_push n al w depth fs (FScal a)) as (Fi & Ro); [cbn [prod_cols]; lia|auto|].
    destruct (H n al (FScal a :: fs)) as (cs & R1 & T); auto. exists cs. split.
    - cbn [in_scope map ev_of]. apply cr_apply; auto. rewrite map_app. cbn [map ev_of]. rewrite <- (app_nil_r cs). eapply cruns_app; [exact R1|]. apply cr_end. constructor.
    - intros d i j Sd Hj. apply same_scope in Sd. rewrite T by auto. apply ksum_ext. intros k Hk. cbn [prod_mat]. unfold mscale. ring.
  Qed.
  Lemma con_mat : forall m c w depth ops D M, c <= w -> contributes c w depth ops D -> contributes m w (S depth) (in_scope ops (CApply (mkD m c M))) (fun d => mmul c M (D d)).
  Proof.
    intros m c w depth ops D M L (K1 & H). split. { constructor; [exact I|]. apply Forall_app; split; [exact K1|repeat constructor]. } intros n al fs P Q. destruct (fits_push n al w depth fs (FMat m c M)) as (Fi & Ro); [cbn [prod_cols]; lia|auto|].
    destruct (H n al (FMat m c M :: fs)) as (cs & R1 & T); auto. exists cs. split.
    - cbn [in_scope map ev_of d_rows d_cols d_at]. apply cr_apply; auto. rewrite map_app. cbn [map ev_of]. rewrite <- (app_nil_r cs). eapply cruns_app; [exact R1|]. apply cr_end. constructor.
    - intros d i j Sd Hj. apply same_scope in Sd. rewrite T by auto. cbn [prod_mat]. rewrite P. transitivity (mmul c (mmul m (prod_mat n fs) M) (D d) i j); [auto|]. rewrite mmul_assoc_pt. auto.
  Qed.
  Lemma con_addid : forall m w depth d0, dv_dim d0 = m -> contributes m w depth [CAddId d0] (fun d i j => if dv_id d0 =? dv_id d then delta i j else k0).
  Proof.
    intros m w depth d0 E. split; [repeat constructor|]. intros n al fs P Q. exists [(d0, prod_mat n fs)]. split; [cbn; constructor; [lia|constructor]|]. intros d i j Sd Hj. unfold total. cbn [filter fst]. destruct (Nat.eqb_spec (dv_id d0) (dv_id d)) as [Ei|Ni].
    - cbn [lsum snd]. apply Forall_inv in Sd. specialize (Sd Ei). rewrite ksum_delta_r by lia. ring.
    - cbn [lsum]. rewrite ksum_zero; auto. intros. ring.
  Qed.
  Lemma con_add : forall m w depth d0 J, contributes m w depth [CAdd d0 (mkD m (dv_dim d0) J)] (fun d i j => if dv_id d0 =? dv_id d then J i j else k0).
  Proof.
    intros m w depth d0 J. split; [repeat constructor|]. intros n al fs P Q. exists [(d0, mmul m (prod_mat n fs) J)]. split; [cbn; constructor; [lia|constructor]|]. intros d i j Sd Hj. unfold total. cbn [filter fst]. destruct (Nat.eqb_spec (dv_id d0) (dv_id d)) as [Ei|Ni].
    - cbn [lsum snd]. unfold mmul. ring.
    - cbn [lsum]. rewrite ksum_zero; auto. intros. ring.
  Qed.

  (* the design variables that occur in the calls *)
  Definition ops_dvs (ops : list (@cop K)) : list dvar := flat_map (fun o => match o with CAdd d _ | CAddId d => [d] | _ => [] end) ops.
  Lemma ops_dvs_ev : forall ops, event_dvs (map ev_of ops) = ops_dvs ops.
  Proof. induction ops as [|o ops IH]; auto. unfold event_dvs, ops_dvs in *. cbn [map flat_map]. rewrite IH. destruct o; auto. Qed.
  Lemma same_dim_in : forall ops d, wf_dvs (ops_dvs ops) -> In d (ops_dvs ops) -> same_dim d ops.
  Proof.
    intros ops d (W & _) Hd. unfold same_dim. apply Forall_forall. intros o Ho. destruct o as [| | |d0 J|d0]; auto; intros E; rewrite (W d0 d); auto; unfold ops_dvs; apply in_flat_map; eexists; (split; [exact Ho|]); cbn; auto.
  Qed.
  (* the sparse container, started empty, ends with D *)
  Lemma contributes_sparse : forall m w depth ops D al, contributes m w depth ops D -> 0 < al -> (N.of_nat m < 65536)%N -> @room K m al w depth [] -> wf_dvs (ops_dvs ops) ->
    exists c, jc_run _ sp_addJ al (sp_init m) ops = Ok c /\
      forall d, In d (ops_dvs ops) -> dv_active d = true -> exists M, sp_Jacobian (jc_store c) d = Ok M /\ d_rows M = m /\ d_cols M = dv_dim d /\ forall i j, i < m -> j < dv_dim d -> d_at M i j = D d i j.
  Proof.
    intros m w depth ops D al (Ok1 & H) Al Lm Ro W. destruct (H m al [] eq_refl Ro) as (cs & Ru & T).
    destruct (sparse_accumulates m al (map ev_of ops) cs [] Al Lm Ru) as (c & E & _ & _ & V); [rewrite ops_dvs_ev; auto|]. rewrite ev_cop in E by auto. exists c. split; auto. intros d Hd Ha. rewrite ops_dvs_ev in V.
    destruct (V d Hd Ha) as (M & E1 & E2 & E3 & E4). exists M. repeat split; auto. intros i j Hi Hj. rewrite E4 by auto. rewrite T by (auto using same_dim_in). cbn [prod_mat]. apply (ksum_delta_l m i (fun k => D d k j)). auto.
  Qed.

  (* the container's Jacobian of a design variable; one that was never added counts as zero *)
  Definition entry (st : list (dvar * @dmat K)) (d : dvar) (i j : nat) : K :=
    match sp_Jacobian st d with Ok M => d_at M i j | _ => k0 end.
  Lemma same_dim_sub : forall ds ops d, wf_dvs ds -> (forall x, In x (ops_dvs ops) -> In x ds) -> In d ds -> same_dim d ops.
  Proof.
    intros ds ops d (W & _) S Hd. apply Forall_forall. intros o Ho. destruct o as [| | |d0 J|d0]; auto; intros E;
      (rewrite (W d0 d); auto; apply S; apply in_flat_map; eexists; split; [exact Ho|]; cbn [In]; auto).
  Qed.
  Lemma filter_nil_iff : forall A (f : A -> bool) l, filter f l = [] <-> forall x, In x l -> f x = false.
  Proof.
    intros A f l. induction l as [|a l IH]; cbn [filter In]; [split; auto; intros _ x []|]. destruct (f a) eqn:E.
    - split; [discriminate|]. intros H. specialize (H a (or_introl eq_refl)). congruence.
    - rewrite IH. split; intros H x; [intros [<-|I1]; auto|intros I1; apply H; auto].
  Qed.
  Lemma wf_sub : forall (ds ds' : list dvar), wf_dvs ds -> (forall x, In x ds' -> In x ds) -> wf_dvs ds'.
  Proof. intros ds ds' (W1 & W2 & W3) S. split; [|split]; intros; [apply W1|apply W2|apply W3]; auto. Qed.
  Lemma contributes_entry : forall m w depth ops D al ds, contributes m w depth ops D -> 0 < al -> (N.of_nat m < 65536)%N -> @room K m al w depth [] -> wf_dvs ds ->
    (forall x, In x (ops_dvs ops) -> In x ds) ->
    exists c, jc_run _ sp_addJ al (sp_init m) ops = Ok c /\
      (forall d M, In d ds -> dv_active d = true -> sp_Jacobian (jc_store c) d = Ok M -> d_rows M = m /\ d_cols M = dv_dim d) /\
      forall d i j, In d ds -> dv_active d = true -> i < m -> j < dv_dim d -> entry (jc_store c) d i j = D d i j.
  Proof.
    intros m w depth ops D al ds (Ok1 & H) Ha Hm Hr W Sb.
    destruct (H m al [] (eq_refl _) Hr) as (cs & R1 & T).
    assert (W' : wf_dvs (event_dvs (map ev_of ops))) by (rewrite ops_dvs_ev; apply (wf_sub ds); auto).
    destruct (sparse_accumulates m al (map ev_of ops) cs [] Ha Hm R1 W') as (c & E & St & _ & F). rewrite ev_cop in E by auto. exists c. split; auto.
    assert (G : forall d, In d ds -> dv_active d = true -> In d (ops_dvs ops) \/ (~ In d (ops_dvs ops) /\ sp_Jacobian (jc_store c) d = Throw)).
    { intros d Hd Ad. destruct (sp_Jacobian (jc_store c) d) as [M| |] eqn:EJ.
      - left. unfold sp_Jacobian in EJ. destruct (List.find _ _) as [[d' M']|] eqn:Ef; [|discriminate]. apply find_some in Ef. cbn [fst] in Ef. destruct Ef as (I1 & Eb). apply Z.eqb_eq in Eb.
        apply St in I1. destruct I1 as (I1 & A1 & _). rewrite ops_dvs_ev in I1. destruct W as (_ & _ & W3). rewrite <- (W3 d' d) by auto. auto.
      - right. split; auto. intros I1. rewrite <- ops_dvs_ev in I1. destruct (F d I1 Ad) as (M & EM & _). congruence.
      - unfold sp_Jacobian in EJ. destruct (List.find _ _); discriminate. }
    split.
    - intros d M Hd Ad EM. destruct (G d Hd Ad) as [I1|[_ I1]]; [|congruence]. rewrite <- ops_dvs_ev in I1. destruct (F d I1 Ad) as (M' & EM' & ? & ? & _). rewrite EM in EM'. injection EM' as <-. auto.
    - intros d i j Hd Ad Hi Hj. pose proof (T d i j (same_dim_sub ds ops d W Sb Hd) Hj) as T1.
      assert (T2 : total cs d i j = D d i j).
      { rewrite T1. cbn [prod_mat]. apply (ksum_delta_l m i (fun k => D d k j)). auto. }
      unfold entry. destruct (G d Hd Ad) as [I1|[I1 I2]].
      + rewrite <- ops_dvs_ev in I1. destruct (F d I1 Ad) as (M & EM & _ & _ & EE). rewrite EM, EE by auto. auto.
      + rewrite I2, <- T2. unfold total. rewrite (proj2 (filter_nil_iff _ _ cs)); auto. intros x Hx. apply Nat.eqb_neq. intros Ei. apply (in_map fst) in Hx. rewrite (cruns_dvs _ _ _ _ _ _ R1), ops_dvs_ev in Hx.
        apply I1. destruct W as (W1 & _). rewrite <- (W1 (fst x) d); auto.
  Qed.
End Base.
