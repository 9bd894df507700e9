(** * Concrete histories, used as examples next to the theorems *)
From Coq Require Import Arith Lia List ZArith NArith Bool Reals Lra FunctionalExtensionality.
From Verif Require Import Lib_Ring Lib_Real Lib_Res MatrixStack_Model MatrixStack_Spec DesignVar_Base Jacobian_Model Jacobian_Spec Expr_Base Scalar_Model Scalar_Spec Scalar_Calc Scalar_Proofs Scalar_Proofs2 Geo_Model Geo_Spec Geo_Algebra Geo_Proofs Geo_Tangent Geo_Main Geo_Proofs2 Geo_Toy Stale_Model Stale_Spec Stale_Proofs.
Import ListNotations.
Local Open Scope R_scope.

(* nothing cached *)
Definition no_cache : cst := {| cm := fun _ => None; cv := fun _ => None |}.
(* the objects of the expressions of Geo_Toy *)
Definition toy_L (n : nat) : node :=
  match n with
  | 0%nat => NT toy_t | 1%nat => NT (TxInv 1 (TxRT (RxAxis 0 (XVar gS)) (ExDir gD 5)))
  | 5%nat => NV (ExMat 5 gM Bm (ExHom (HxMul 6 (TxT (VxVar gT)) (HxOfE (VxVar gT))))) | 6%nat => NH (HxMul 6 (TxT (VxVar gT)) (HxOfE (VxVar gT)))
  | 7%nat => NV (ExRot 7 (RxMul 8 (RxVar gR) (RxOfT toy_t)) (VxScale (ExDir gD 2) (XUn USin (XVar gS)))) | 8%nat => NR (RxMul 8 (RxVar gR) (RxOfT toy_t))
  | 9%nat => NR (RxMul 9 (RxVar gR) (RxInv 10 (RxAxis 1 (XVar gS)))) | _ => NR (RxInv 10 (RxAxis 1 (XVar gS))) end.
(* the rotation 1, the point (1, 2, k) *)
Definition st_k (k : R) : state := fun id i => match id with 0%nat => delta (i / 3)%nat (i mod 3)%nat | _ => match i with 0%nat => 1 | 1%nat => 2 | _ => k end end.
Definition st_h1 : list event := [EvState (st_k 3); EvValue (AS toy_s); EvJac (AT toy_t); EvState toy_st].
Definition st_h2 : list event := [EvJac (AV toy_v); EvValue (AT toy_t)].
Lemma hist_hyps : any_lab toy_L (AS toy_s) /\ Forall (quiet toy_L) st_h2 /\ fst (play toy_kin (st_h1 ++ EvValue (AS toy_s) :: st_h2) (toy_st, no_cache)) = toy_st /\ any_value_ok toy_kin (AS toy_s) toy_st.
Proof.
  split; [cbn; repeat split; reflexivity|]. split; [repeat constructor|]. split; [reflexivity|]. destruct toy_s_hyps as (H1 & H2 & H3 & H4 & H5 & H6 & _).
  assert (0 < 16)%nat as H0 by lia. destruct (scalar_geo toy_kin (fun _ => True) toy_kinds toy_st 16 H1 H2 H0 toy_s H3 H4 H5 H6) as (v & _ & _ & E & _). exists v. exact E.
Qed.
(* T applied to a homogeneous point, as a Euclidean point, minus the translation of T *)
Definition cur_v : vx := ExSub (ExHom (HxMul 6 (TxT (VxVar gT)) (HxOfE (VxVar gT)))) (ExTrans toy_t).
Lemma cur_hyps : any_lab toy_L (AV cur_v) /\ any_cur (AV cur_v) = true /\ fst (play toy_kin [EvValue (AV cur_v); EvState (st_k 3)] (toy_st, no_cache)) = st_k 3 /\ any_value_ok toy_kin (AV cur_v) (st_k 3).
Proof.
  split; [cbn; repeat split; reflexivity|]. split; [reflexivity|]. split; [reflexivity|]. unfold any_value_ok, cur_v. cbn [vxval hxval txval rxval sxval bind toy_t]. unfold fromHom.
  destruct (Req_EM_T _ 0) as [E|E]; [|cbn [bind]; eexists; reflexivity]. exfalso. unfold mvmul in E. rewrite ks4 in E. cbn in E. lra.
Qed.

(** C p with the point changed after the last evaluation *)
Definition st_e : vx := ExRot 0 (RxVar gR) (VxVar gT).
Lemma st_rot : forall k, is_rot (m3 (st_k k 0%nat)).
Proof. intros k. apply (rot_ext mid); [|apply rot_id]. intros p q Hp Hq. unfold m3, st_k. symmetry. apply (m3_rebuild mid); auto. Qed.
Lemma st_ok : forall k, state_ok toy_kinds (st_k k).
Proof. intros k id K. destruct id as [|[|[|[|[|[|id]]]]]]; try discriminate. apply st_rot. Qed.
Lemma st_partial : forall k, gpartial toy_kin toy_kinds (fun s => do x <- vxval toy_kin st_e s; Ok (x 0%nat)) (st_k k) gR 1 (- k).
Proof.
  intros k. apply (tan_partial _ _ _ _ _ _ (fun h => cos (- h) * 1 + 0 * 2 + sin (- h) * k)).
  - apply near_all. intros h. cbn [vxval rxval bind st_e]. f_equal. unfold mvmul. rewrite ks3. unfold gp, gperturb. cbn [gR gT dv_id Nat.eqb toy_kinds update_value].
    rewrite !toy_m3 by lia. unfold mmul. rewrite !ks3. cbn. ring.
  - apply (der_eq _ _ ((- sin (- 0) * - 1) * 1 + 0 * 2 + (cos (- 0) * - 1) * k)); [rewrite Ropp_0, cos_0, sin_0; ring|].
    assert (N : derivable_pt_lim (fun h => - h) 0 (- 1)) by (apply (der_opp (fun h => h)), der_id).
    apply (der_plus (fun h => cos (- h) * 1 + 0 * 2) (fun h => sin (- h) * k)); [apply (der_plus (fun h => cos (- h) * 1) (fun _ => 0 * 2)); [|apply (der_eq _ _ 0); [ring|apply der_const]]|].
    + apply (der_scal_r (fun h => cos (- h))). apply (der_comp cos (fun h => - h)); auto. apply derivable_pt_lim_cos.
    + apply (der_scal_r (fun h => sin (- h))). apply (der_comp sin (fun h => - h)); auto. apply derivable_pt_lim_sin.
Qed.
Lemma stale : exists ops c, let now := play toy_kin [EvState (st_k 3); EvValue (AV st_e); EvState (st_k 5)] (toy_st, no_cache) in
  fst now = st_k 5 /\ fst (any_jac toy_kin (AV st_e) (fst now) (snd now)) = Ok ops /\ jc_run _ sp_addJ 16 (sp_init 3) ops = Ok c /\
  jacobian_entry (jc_store c) gR 0 1 = - 3 /\ gpartial toy_kin toy_kinds (fun s => do x <- vxval toy_kin st_e s; Ok (x 0%nat)) (st_k 5) gR 1 (- 5).
Proof.
  assert (0 < 16)%nat as H0 by lia.
  destruct (vector_geo toy_kin (fun _ => True) toy_kinds (st_k 3) 16 toy_kin_ok (st_ok 3) H0 st_e) as (v & ops & c & _ & J & Er & P).
  - cbn. auto.
  - cbn. auto.
  - split; [reflexivity|split; reflexivity].
  - wf6.
  - exists ops, c. cbn zeta. split; [reflexivity|]. split.
    { rewrite <- J. reflexivity. }
    split; [exact Er|]. split; [|apply st_partial]. assert (Q : gpartial toy_kin toy_kinds (fun s => do x <- vxval toy_kin st_e s; Ok (x 0%nat)) (st_k 3) gR 1 (jacobian_entry (jc_store c) gR 0 1)) by (apply P; cbn; auto; lia).
    exact (rder_unique _ _ _ _ Q (st_partial 3)).
Qed.
Lemma never_evaluated : fst (any_jac toy_kin (AT toy_t) toy_st no_cache) = UB.
Proof. reflexivity. Qed.
