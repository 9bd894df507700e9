(** * Jacobians of matrix and quaternion expressions (proofs only) *)
From Coq Require Import Arith Lia List ZArith NArith Bool Reals Lra Ring FunctionalExtensionality.
From Verif Require Import Lib_Ring Lib_Real Lib_Res Lib_MatInv MatrixStack_Model DesignVar_Base Jacobian_Model Jacobian_Spec Expr_Base Scalar_Model Scalar_Spec Scalar_Proofs Scalar_Proofs2
  MatExpr_Model MatExpr_Spec MatExpr_Proofs MatExpr_Proofs2.
Import ListNotations.
Local Open Scope R_scope.

Lemma tan_update : forall X m g p j, qkin_ok X -> (j < 3)%nat -> vtan 4 (fun h => qupdate X m g p (fun k => if (k =? j)%nat then h else 0)) (fun i => dUpdate X m g p i j).
Proof.
  intros X m g p j K Hj. set (v := fun (h : R) (k : nat) => if (k =? j)%nat then h else 0).
  assert (V : vtan 3 v (fun k => delta k j)). { intros k Hk. unfold v, delta. destruct (k =? j)%nat; [exact (der_id 0)|exact (der_const 0 0)]. }
  assert (Z : forall k, (k < 3)%nat -> v 0 k = 0) by (intros k Hk; unfold v; destruct (k =? j)%nat; auto).
  assert (E : vtan 4 (fun h => qexpM X m (v h)) (from_last m (fun i => delta i j))).
  { eapply tan_eq; [exact (tan_exp X m v _ K V)|]. intros i Hi. unfold mvmul. transitivity (dexpM X m (v 0) i j); [exact (ksum_delta_r 3 j (dexpM X m (v 0) i) Hj)|]. unfold dexpM.
    destruct m as [[] t]; cbn [from_last real_first]; [destruct i as [|i]|]; apply (dexp_zero X K); auto; lia. }
  assert (C : vtan 4 (fun _ => p) (fun _ => 0)) by (intros i Hi; exact (der_const (p i) 0)).
  assert (J1 : forall i, (i < 4)%nat -> qplus X (to_last m p) i j = qmul LRT (fun i => delta i j) (to_last m p) i).
  { intros i Hi. rewrite <- (plus_mul X K) by auto. symmetry. apply (ksum_delta_r 4 j (qplus X (to_last m p) i)). lia. }
  assert (J2 : forall i, (i < 4)%nat -> qoplus X (to_last m p) i j = qmul LRT (to_last m p) (fun i => delta i j) i).
  { intros i Hi. rewrite <- (oplus_mul X K) by auto. symmetry. apply (ksum_delta_r 4 j (qoplus X (to_last m p) i)). lia. }
  destruct g; cbn [qupdate].
  - eapply tan_eq; [exact (tan_qmul m _ _ _ _ C E)|]. intros i Hi. unfold dUpdate. rewrite xorb_false_r. destruct m as [[] []]; cbn [from_last real_first traditional] in *; cases4 i Hi; cbn beta iota; rewrite ?J1, ?J2 by lia; unfold vadd; cbn; ring.
  - eapply tan_eq; [exact (tan_qmul m _ _ _ _ E C)|]. intros i Hi. unfold dUpdate. rewrite xorb_true_r. destruct m as [[] []]; cbn [from_last real_first traditional negb] in *; cases4 i Hi; cbn beta iota; rewrite ?J1, ?J2 by lia; unfold vadd; cbn; ring.
Qed.
Lemma pert_zero : forall X kd s d j, qkin_ok X -> pert X kd s d j 0 = s.
Proof.
  intros X kd s d j K. apply functional_extensionality. intros id. apply functional_extensionality. intros i. unfold pert. destruct (id =? dv_id d)%nat; auto. destruct (kd id) as [[m g]|].
  - destruct (Nat.ltb_spec i 4); auto. assert (Z : forall x, (x < 4)%nat -> qexp X (fun k => if (k =? j)%nat then 0 else 0) x = delta x 3) by (apply (exp_zero X K); intros k _; destruct (k =? j)%nat; auto).
    unfold qupdate, qexpM. destruct m as [[] []], g; cases4 i H; cbn; rewrite !Z by lia; cbn; ring.
  - destruct (i =? j)%nat; [|reflexivity]. ring.
Qed.

Scheme mx_rect2 := Induction for mx Sort Prop with sx_rect2 := Induction for sx Sort Prop.
Combined Scheme mx_sx_ind from mx_rect2, sx_rect2.

Section Main.
  Variables (X : qkin) (kd : kinds) (s : state) (w : nat).
  Hypothesis K : qkin_ok X.
  Definition good (e : mx) : Prop := xwf kd e -> xdom X kd s e -> (xwidth e <= w)%nat -> exists T : dvr -> nat -> mat R,
    (forall d j, (j < dv_dim d)%nat -> mtan (xrows e) (xcols e) (fun h => xval X e (pert X kd s d j h)) (T d j)) /\
    forall rows m df, diff_ok m (xrows e) (xcols e) df -> fits_in rows m (kind_of df) e ->
      exists ops, xjac X e s rows m df = Ok ops /\ contributes m w (xdepth e) ops (fun d i j => applyInto df (T d j) i) /\ forall x, In x (ops_dvs ops) -> In x (xdvs e).
  Definition sgood' (e : sx) : Prop := sxwf kd e -> sxdom X kd s e -> (sxwidth e <= w)%nat -> exists t : dvr -> nat -> R,
    (forall d j, (j < dv_dim d)%nat -> derivable_pt_lim (fun h => sxval X e (pert X kd s d j h)) 0 (t d j)) /\
    forall rows, sfits_in rows e -> exists ops, sxjac X e s rows = Ok ops /\ contributes 1 w (sxdepth e) ops (fun d _ j => t d j) /\ forall x, In x (ops_dvs ops) -> In x (sxdvs e).
  Lemma P0 : forall d j, pert X kd s d j 0 = s.
  Proof. intros. apply pert_zero. exact K. Qed.

  Lemma good_vec : forall d, good (XVec d).
  Proof.
    intros d0 Wf _ _. cbn [xwf] in Wf. exists (fun d j => if (dv_id d0 =? dv_id d)%nat then unitv j else fun _ _ => 0). split.
    - intros d j Hj i k Hi Hk. cbn [xval]. unfold col, pert. destruct (Nat.eqb_spec (dv_id d0) (dv_id d)) as [E|E]; [|exact (der_const _ 0)].
      rewrite Wf. unfold unitv, delta. destruct (i =? j)%nat; [|exact (der_const _ 0)]. eapply der_eq; [|apply (der_plus (fun _ => s (dv_id d0) i) (fun h => h) 0 0 1); [apply der_const|apply der_id]]. cbn. ring.
    - intros rows m df Hd Hf. cbn [xrows xcols xjac fits_in xdepth xdvs] in *. destruct (add_ok rows m df d0 w 0 Hd Hf) as (ops & E & C & I1). exists ops. split; auto. split; [|intros x Hx; left; symmetry; auto].
      eapply con_ext; [|exact C]. intros d i j Hi. cbn beta. destruct (_ =? _)%nat; auto. symmetry. apply (app_zero m (dv_dim d0) 1); auto.
  Qed.
  Lemma good_quat : forall d m g, good (XQuat d m g).
  Proof.
    intros d0 md g Wf _ _. cbn [xwf] in Wf. destruct Wf as (Wk & Wd). exists (fun d j => if (dv_id d0 =? dv_id d)%nat && (j <? 3)%nat then fun i _ => dUpdate X md g (s (dv_id d0)) i j else fun _ _ => 0). split.
    - intros d j Hj i k Hi Hk. cbn [xval xrows] in *. unfold col, pert. destruct (Nat.eqb_spec (dv_id d0) (dv_id d)) as [E|E]; [|exact (der_const _ 0)]. rewrite Wk. replace (i <? 4)%nat with true by (symmetry; apply Nat.ltb_lt; auto). cbn [andb].
      destruct (Nat.ltb_spec j 3) as [Hj3|Hj3]; [exact (tan_update X md g (s (dv_id d0)) j K Hj3 i Hi)|].
      assert (C : forall h, pert X kd s d j h (dv_id d0) i = s (dv_id d0) i).
      { intros h. assert (Z : forall x, (x < 4)%nat -> qexp X (fun k => if (k =? j)%nat then h else 0) x = delta x 3) by (apply (exp_zero X K); intros y Hy; destruct (Nat.eqb_spec y j); auto; lia).
        unfold pert. rewrite E, Nat.eqb_refl, <- E, Wk. replace (i <? 4)%nat with true by (symmetry; apply Nat.ltb_lt; auto). unfold qupdate, qexpM. destruct md as [[] []], g; cases4 i Hi; cbn; rewrite !Z by lia; cbn; ring. }
      apply (der_ext (fun _ => s (dv_id d0) i)); [|apply der_const]. intros h. rewrite <- (C h). unfold pert. rewrite E, Nat.eqb_refl, <- E, Wk. replace (i <? 4)%nat with true by (symmetry; apply Nat.ltb_lt; auto). reflexivity.
    - intros rows m df Hd Hf. cbn [xrows xcols xjac fits_in xdepth xdvs] in *. destruct Hf as (-> & Hf). destruct (addJ_ok rows m df d0 w 0 4 (dUpdate X md RIGHT_TRANSLATED (s (dv_id d0))) Hd Hf) as (ops & E & C & I1). rewrite Wd in E. exists ops. split; auto. split; [|intros x Hx; left; symmetry; auto].
      assert (N : ops <> [] -> In d0 (ops_dvs ops)). { destruct ops as [|o ops']; [contradiction|]. intros _. destruct df; cbn in E. all: try (injection E as <- <-; left; reflexivity). all: try discriminate.
        all: unfold calcJac in E; cbn [dcols negb Nat.eqb drange] in E; repeat match type of E with context [if ?b then _ else _] => destruct b; try discriminate | context [match ?o with Some _ => _ | None => _ end] => destruct o; try discriminate end; injection E as <- <-; left; reflexivity. }
      destruct ops as [|o ops'].
      + assert (df = DNull) as ->. { destruct df; cbn in E; try discriminate; auto. all: unfold calcJac in E; cbn [dcols negb Nat.eqb drange] in E; repeat match type of E with context [if ?b then _ else _] => destruct b; try discriminate | context [match ?o with Some _ => _ | None => _ end] => destruct o; try discriminate end. }
        eapply con_ext; [|apply con0]. intros d i j Hi. reflexivity.
      + eapply con_ext'; [|exact C]. intros d i j Hi Hj Sd. cbn beta. destruct (Nat.eqb_spec (dv_id d0) (dv_id d)) as [Ed|Ed]; cbn [andb].
        * assert (Dd : dv_dim d = 3%nat).
          { assert (In d0 (ops_dvs (o :: ops'))) as H0 by (apply N; discriminate). unfold ops_dvs in H0. apply in_flat_map in H0. destruct H0 as (o' & Io & Hd0). unfold same_dim in Sd. rewrite Forall_forall in Sd. specialize (Sd o' Io).
            destruct o'; cbn [In] in Hd0; try contradiction; destruct Hd0 as [<-|[]]; rewrite <- Wd; symmetry; auto. }
          replace (j <? 3)%nat with true by (symmetry; apply Nat.ltb_lt; lia). reflexivity.
        * symmetry. apply (app_zero m 4 1); auto.
  Qed.
  Lemma good_const : forall r c A, good (XConst r c A).
  Proof.
    intros r c A _ _ _. exists (fun _ _ _ _ => 0). split.
    - intros d j Hj i k Hi Hk. exact (der_const (A i k) 0).
    - intros rows m df Hd _. exists []. split; auto. split; [|intros x []]. eapply con_ext; [|apply con0]. intros d i j Hi. symmetry. apply (app_zero m r c); auto.
  Qed.
  Lemma good_un : forall o a, good a -> good (XUn o a).
  Proof.
    intros o a IH (Wa & Wo) (Da & Do) Hw. destruct (IH Wa Da Hw) as (T & HT & HJ). exists (fun d j => un_diff X o (xrows a) (xval X a s) (T d j)). split.
    - apply (un_tan X kd o s (xrows a) (xcols a) (xval X a) (xval X a s) T); auto using P0.
    - intros rows m df Hd Hf. cbn [fits_in xjac xdepth xdvs xrows xcols] in *. destruct (HJ rows m (DComp (xrows a) (xcols a) (un_diff X o (xrows a) (xval X a s)) df)) as (ops & E & C & I1); auto.
      + econstructor; [apply un_lin; exact Wo|exact Hd].
      + exists ops. split; auto.
  Qed.
  Lemma good_bin : forall o a b, good a -> good b -> good (XBin o a b).
  Proof.
    intros o a b IHa IHb (Wa & Wb & Wo) (Da & Db) Hw. cbn [xwidth] in Hw. destruct (IHa Wa Da) as (Ta & HTa & HJa); [lia|]. destruct (IHb Wb Db) as (Tb & HTb & HJb); [lia|].
    set (L := bin_dl o (xcols a) (xcols b) (xval X a s) (xval X b s)). set (Rr := bin_dr o (xcols a) (xcols b) (xval X a s) (xval X b s)). exists (fun d j => madd (L (Ta d j)) (Rr (Tb d j))). split.
    - intros d j Hj. pose proof (bin_tan o (xrows a) (xcols a) (xrows b) (xcols b) _ _ _ _ Wo (HTa d j Hj) (HTb d j Hj)) as H. cbn beta in H. rewrite P0 in H. exact H.
    - intros rows m df Hd (Fa & Fb). cbn [xjac xdepth xdvs xrows xcols] in *.
      destruct (HJa rows m (DComp (xrows a) (xcols a) L df)) as (oa & Ea & Ca & Ia); [econstructor; [apply bin_lin_l; exact Wo|exact Hd]|exact Fa|].
      destruct (HJb rows m (DComp (xrows b) (xcols b) Rr df)) as (ob & Eb & Cb & Ib); [econstructor; [apply bin_lin_r; exact Wo|exact Hd]|exact Fb|].
      fold L Rr. rewrite Ea, Eb. cbn [bind]. exists (oa ++ ob). split; auto. split; [|rewrite ops_app; apply in_app_l; auto].
      eapply con_ext; [|apply conA; [eapply con_weaken; [| |exact Ca]; lia|eapply con_weaken; [| |exact Cb]; lia]]. intros d i j Hi. cbn beta. cbn [applyInto]. symmetry. apply (app_add m (bin_rows o (xrows a) (xrows b)) (bin_cols o (xcols a) (xcols b))); auto.
  Qed.
  (* a scalar operand under a differential with domain 1 x 1 *)
  Lemma under_scalar : forall e t m df rows, (1 <= w)%nat -> diff_ok m 1 1 df -> kind_of df <> KMat ->
    (exists ops, sxjac X e s rows = Ok ops /\ contributes 1 w (sxdepth e) ops (fun d _ j => t d j) /\ forall x, In x (ops_dvs ops) -> In x (sxdvs e)) ->
    exists ops, under m 1 df (sxjac X e s rows) = Ok ops /\ contributes m w (S (sxdepth e)) ops (fun d i j => applyInto df (fun _ _ => t d j) i) /\ forall x, In x (ops_dvs ops) -> In x (sxdvs e).
  Proof.
    intros e t m df rows Lw Hd NK (ops & E & C & I1). destruct (convert_ok m 1 df Hd NK) as (A & EA & HA). unfold under. rewrite EA, E. cbn [bind]. exists (scope (CApply (mkD m 1 A)) ops). split; auto.
    split; [|rewrite ops_scopeM; auto]. eapply con_ext; [|apply conM; [exact Lw|exact C]]. intros d i j Hi. cbn beta. exact (HA (fun _ => t d j) i Hi).
  Qed.
  Lemma good_scale : forall a e, good a -> sgood' e -> good (XScaleS a e).
  Proof.
    intros a e IHa IHe (Wa & We) (Da & De) Hw. cbn [xwidth] in Hw. destruct (IHa Wa Da) as (Ta & HTa & HJa); [lia|]. destruct (IHe We De) as (t & Ht & HJe); [lia|].
    exists (fun d j => madd (fun i k => Ta d j i k * sxval X e s) (fun i k => xval X a s i k * t d j)). split.
    - intros d j Hj i k Hi Hk. cbn [xval]. pose proof (der_mul (fun h => xval X a (pert X kd s d j h) i k) (fun h => sxval X e (pert X kd s d j h)) 0 _ _ (HTa d j Hj i k Hi Hk) (Ht d j Hj)) as H. cbn beta in H. rewrite P0 in H. exact H.
    - intros rows m df Hd (Fa & Fe). cbn [xjac xdepth xdvs xrows xcols] in *.
      destruct (HJa rows m (DComp (xrows a) (xcols a) (fun T i k => T i k * sxval X e s) df)) as (oa & Ea & Ca & Ia); [econstructor; [apply lin_scale|exact Hd]|exact Fa|].
      destruct (under_scalar e t m (DComp 1 1 (fun T i k => xval X a s i k * T 0%nat 0%nat) df) rows) as (oe & Ee & Ce & Ie); [lia| |discriminate|auto|].
      + econstructor; [|exact Hd]. apply lin_pt; [intros A B H i k Hi Hk; rewrite (H 0%nat 0%nat) by lia; auto| |]; intros; [unfold madd|unfold mscale]; cbn; ring.
      + rewrite Ea, Ee. cbn [bind]. exists (oa ++ oe). split; auto. split; [|rewrite ops_app; apply in_app_l; auto].
        eapply con_ext; [|apply conA; [eapply con_weaken; [| |exact Ca]; lia|eapply con_weaken; [| |exact Ce]; lia]]. intros d i j Hi. cbn beta. cbn [applyInto]. symmetry. apply (app_add m (xrows a) (xcols a)); auto.
  Qed.
  Lemma good_ofs : forall e, sgood' e -> good (XOfS e).
  Proof.
    intros e IHe We De Hw. cbn [xwidth xwf xdom] in *. destruct (IHe We De) as (t & Ht & HJe); [lia|]. exists (fun d j _ _ => t d j). split.
    - intros d j Hj i k Hi Hk. exact (Ht d j Hj).
    - intros rows m df Hd Fe. cbn [xjac xdepth xdvs xrows xcols] in *. apply (under_scalar e t m (DComp 1 1 (fun T => T) df) rows); [lia| |discriminate|auto]. econstructor; [apply lin_id|exact Hd].
  Qed.
  Lemma kind_mat : forall r c A df, kind_of (DCompMat r c A df) = match kind_of df with KId => KMatId | _ => KMat end.
  Proof. intros r c A df. destruct df; try reflexivity. cbn. destruct df; reflexivity. Qed.
  Lemma good_exp : forall m a, good a -> good (XExp m a).
  Proof.
    intros md a IH (Wa & Er & Ec) Da Hw. destruct (IH Wa Da Hw) as (T & HT & HJ). exists (fun d j => mmul 3 (dexpM X md (cv (xval X a s))) (T d j)). split.
    - intros d j Hj. apply (tan_col 4). pose proof (HT d j Hj) as H. rewrite Er, Ec in H. apply tan_col in H. pose proof (tan_exp X md _ _ K H) as H'. cbn beta in H'. rewrite P0 in H'. exact H'.
    - intros rows m df Hd Hf. cbn [fits_in xjac xdepth xdvs xrows xcols] in *. destruct (HJ rows m (DCompMat 4 3 (dexpM X md (cv (xval X a s))) df)) as (ops & E & C & I1).
      + rewrite Er, Ec. constructor. exact Hd.
      + rewrite kind_mat. exact Hf.
      + exists ops. split; auto.
  Qed.
  Lemma good_log : forall m a, good a -> good (XLog m a).
  Proof.
    intros md a IH (Wa & Er & Ec) (Da & Dl) Hw. destruct (IH Wa Da Hw) as (T & HT & HJ). exists (fun d j => mmul 4 (dlogM X md (cv (xval X a s))) (T d j)). split.
    - intros d j Hj. apply (tan_col 3). pose proof (HT d j Hj) as H. rewrite Er, Ec in H. apply tan_col in H. pose proof (tan_log X md _ _ K H) as H'. cbn beta in H'. rewrite P0 in H'. exact (H' Dl).
    - intros rows m df Hd Hf. cbn [fits_in xjac xdepth xdvs xrows xcols] in *. destruct (HJ rows m (DCompMat 3 4 (dlogM X md (cv (xval X a s))) df)) as (ops & E & C & I1).
      + rewrite Er, Ec. constructor. exact Hd.
      + rewrite kind_mat. exact Hf.
      + exists ops. split; auto.
  Qed.
  Lemma good_ext : forall l, good (XExt l).
  Proof.
    intros l _ (Dl & ops & HV & HJ & HC & HI) Hw. cbn [xwidth] in Hw. exists (fun d j i _ => Dl d i j). split.
    - intros d j Hj. apply (tan_col (l_rows l)). exact (HV d j Hj).
    - intros rows m df Hd NK. cbn [fits_in xjac xdepth xdvs xrows xcols] in *. destruct (convert_ok m (l_rows l) df Hd NK) as (A & EA & HA). unfold under. rewrite EA, HJ. cbn [bind]. eexists. split; [reflexivity|]. split; [|rewrite ops_scopeM; auto].
      eapply con_ext; [|apply conM; [|eapply con_weaken; [| |exact HC]; [lia|apply le_n]]; lia]. intros d i j Hi. cbn beta. exact (HA (fun k => Dl d k j) i Hi).
  Qed.
  Lemma good_sext : forall l, sgood' (SExt l).
  Proof.
    intros l Wl (Dl & ops & HV & HJ & HC & HI) Hw. cbn [sxwf sxwidth] in *. rewrite Wl in *. exists (fun d j => Dl d 0%nat j). split.
    - intros d j Hj. apply (HV d j Hj). lia.
    - intros rows _. exists ops. split; auto. split; auto. eapply con_ext; [|eapply con_weaken; [| |exact HC]; [exact Hw|apply le_n]]. intros d i j Hi. replace i with 0%nat by lia. auto.
  Qed.
  Lemma good_entry : forall a i k, good a -> sgood' (SEntry a i k).
  Proof.
    intros a i k IH (Wa & Hi & Hk) Da Hw. destruct (IH Wa Da Hw) as (T & HT & HJ). exists (fun d j => T d j i k). split.
    - intros d j Hj. apply (HT d j Hj); auto.
    - intros rows Hf. cbn [sxjac sxdepth sxdvs sfits_in] in *. destruct (HJ rows 1%nat (DComp (xrows a) (xcols a) (fun T x y => T (i + x)%nat (k + y)%nat) (DId 1))) as (ops & E & C & I1); auto.
      + econstructor; [|apply dk_id]. apply lin_pt; [intros A B H x y Hx Hy; apply H; lia| |]; intros; reflexivity.
      + exists ops. split; auto. split; auto. eapply con_ext; [|exact C]. intros d x j Hx. cbn [applyInto]. unfold cv. replace x with 0%nat by lia. rewrite !Nat.add_0_r. auto.
  Qed.
  Lemma good_norm : forall a, good a -> sgood' (SNorm a).
  Proof.
    intros a IH (Wa & Ec) Da Hw. cbn [sxwidth] in Hw. destruct (IH Wa Da) as (T & HT & HJ); [lia|]. exists (fun d j => ksum (xrows a) (fun k => 2 * xval X a s k 0%nat * T d j k 0%nat)). split.
    - intros d j Hj. cbn [sxval]. unfold vdot, cv. apply (der_ksum (xrows a) (fun k h => xval X a (pert X kd s d j h) k 0%nat * xval X a (pert X kd s d j h) k 0%nat)). intros x Hx. assert (H : derivable_pt_lim (fun h => xval X a (pert X kd s d j h) x 0%nat) 0 (T d j x 0%nat)) by (apply (HT d j Hj); lia).
      pose proof (der_mul _ _ _ _ _ H H) as H2. cbn beta in H2. rewrite P0 in H2. eapply der_eq; [|exact H2]. ring.
    - intros rows Hf. cbn [sxjac sxdepth sxdvs sfits_in] in *. rewrite Ec in *. destruct (HJ rows (xrows a) (DId (xrows a))) as (ops & E & C & I1); [constructor|exact Hf|]. rewrite E. cbn [bind]. eexists. split; [reflexivity|]. split; [|rewrite ops_scopeM; auto].
      eapply con_ext; [|apply conM; [|exact C]; lia]. intros d i j Hi. reflexivity.
  Qed.
  Lemma main : (forall e, good e) /\ (forall e, sgood' e).
  Proof. apply mx_sx_ind; auto using good_vec, good_quat, good_const, good_un, good_bin, good_scale, good_ofs, good_exp, good_log, good_ext, good_sext, good_entry, good_norm. Qed.
End Main.
