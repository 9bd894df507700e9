(** * Matrix expressions in a container; differentials; refutations (proofs only) *)
From Coq Require Import Arith Lia List ZArith NArith Bool Reals Lra Ring FunctionalExtensionality.
From Verif Require Import Lib_Ring Lib_Real Lib_Res Lib_MatInv MatrixStack_Model MatrixStack_Spec DesignVar_Base Jacobian_Model Jacobian_Spec Expr_Base Scalar_Model Scalar_Spec Scalar_Proofs Scalar_Proofs2
  MatExpr_Model MatExpr_Spec MatExpr_Proofs MatExpr_Proofs2 MatExpr_Proofs3.
Import ListNotations.
Local Open Scope R_scope.

Definition unitm (a b : nat) : mat R := fun i k => delta i a * delta k b.
Lemma app_expand2 : forall m r c d A i, diff_ok m r c d -> (i < m)%nat -> applyInto d A i = ksum r (fun a => ksum c (fun b => A a b * applyInto d (unitm a b) i)).
Proof.
  intros m r c d A i H Hi. transitivity (applyInto d (fun x y => ksum r (fun a => 1 * (fun x y => ksum c (fun b => A a b * unitm a b x y)) x y)) i).
  - apply (app_ext m r c); auto. intros x y Hx Hy. rewrite <- (ksum_delta_l r x (fun a => A a y) Hx) at 1. apply ksum_ext. intros a Ha. unfold unitm. rewrite <- (ksum_delta_r c y (fun b => A a b) Hy). rewrite Rmult_1_l.
    change (@kmul R RRing (delta x a) (ksum c (fun i0 => @kmul R RRing (A a i0) (delta i0 y)))) with (delta x a * ksum c (fun i0 => A a i0 * delta i0 y)).
    etransitivity; [symmetry; exact (ksum_mul_l c (delta x a) (fun i0 => A a i0 * delta i0 y))|]. apply ksum_ext. intros b Hb. rewrite (delta_sym y b). cbn. ring.
  - rewrite (app_sum m r c) by auto. apply ksum_ext. intros a Ha. rewrite (app_sum m r c) by auto. cbn. ring.
Qed.
Lemma app_tan : forall m r c d F T i, diff_ok m r c d -> mtan r c F T -> (i < m)%nat -> derivable_pt_lim (fun h => applyInto d (F h) i) 0 (applyInto d T i).
Proof.
  intros m r c d F T i H HT Hi. apply (der_ext (fun h => ksum r (fun a => ksum c (fun b => F h a b * applyInto d (unitm a b) i)))); [intros h; symmetry; apply (app_expand2 m r c); auto|].
  rewrite (app_expand2 m r c d T i H Hi). apply (der_ksum r (fun a h => ksum c (fun b => F h a b * applyInto d (unitm a b) i))). intros a Ha. apply (der_ksum c (fun b h => F h a b * applyInto d (unitm a b) i)). intros b Hb.
  apply (der_scal_r (fun h => F h a b)). apply HT; auto.
Qed.
Lemma matrix_jacobian : forall X kd e s df m al, qkin_ok X -> xwf kd e -> xdom X kd s e -> diff_ok m (xrows e) (xcols e) df -> fits_in m m (kind_of df) e ->
  (0 < al)%nat -> (N.of_nat m < 65536)%N -> stack_room m al (xwidth e) (xdepth e) -> wf_dvs (xdvs e) ->
  exists ops c, xjac X e s m m df = Ok ops /\ jc_run _ sp_addJ al (sp_init m) ops = Ok c /\
    forall d i j, In d (xdvs e) -> dv_active d = true -> (i < m)%nat -> (j < dv_dim d)%nat ->
      derivable_pt_lim (fun h => applyInto df (xval X e (pert X kd s d j h)) i) 0 (jacobian_entry (jc_store c) d i j).
Proof.
  intros X kd e s df m al K W Dm Hd Hf Ha Hm Ro Wd. destruct (proj1 (main X kd s (xwidth e) K) e W Dm (le_n _)) as (T & HT & HJ). destruct (HJ m m df Hd Hf) as (ops & E & C & I1).
  destruct (contributes_entry m (xwidth e) (xdepth e) ops _ al (xdvs e) C Ha Hm (stack_room_room _ _ _ _ Ro) Wd I1) as (c & Er & _ & En). exists ops, c. split; auto. split; [exact Er|].
  intros d i j Hi Ad Hm' Hj. rewrite entry_R, En by auto. apply (app_tan m (xrows e) (xcols e)); auto.
Qed.
Lemma sx_jacobian : forall X kd e s al, qkin_ok X -> sxwf kd e -> sxdom X kd s e -> sfits_in 1 e -> (0 < al)%nat -> stack_room 1 al (sxwidth e) (sxdepth e) -> wf_dvs (sxdvs e) ->
  exists ops c, sxjac X e s 1 = Ok ops /\ jc_run _ sp_addJ al (sp_init 1) ops = Ok c /\
    forall d j, In d (sxdvs e) -> dv_active d = true -> (j < dv_dim d)%nat -> derivable_pt_lim (fun h => sxval X e (pert X kd s d j h)) 0 (jacobian_entry (jc_store c) d 0 j).
Proof.
  intros X kd e s al K W Dm Hf Ha Ro Wd. destruct (proj2 (main X kd s (sxwidth e) K) e W Dm (le_n _)) as (t & HT & HJ). destruct (HJ 1%nat Hf) as (ops & E & C & I1).
  destruct (contributes_entry 1 (sxwidth e) (sxdepth e) ops _ al (sxdvs e) C Ha eq_refl (stack_room_room _ _ _ _ Ro) Wd I1) as (c & Er & _ & En). exists ops, c. split; auto. split; [exact Er|].
  intros d j Hd Ad Hj. rewrite entry_R, En by auto. auto.
Qed.

Lemma pert_vec : forall X s d j h, pert X (fun _ => None) s d j h = perturb s d j h.
Proof. intros. apply functional_extensionality. intros id. apply functional_extensionality. intros i. unfold pert, perturb. destruct (_ =? _)%nat; cbn [andb]; auto. Qed.
Lemma leaf_s_ok : forall X e s, swf e -> sdom e s -> leaf_ok X (fun _ => None) s (leaf_of_s e).
Proof.
  intros X e s W Dm. destruct (proj1 (expr_main s (swidth e)) e W Dm (le_n _)) as (D & v & ops & (Ev & Ej & C & I1 & P)). exists D, ops. split; [|auto].
  intros d j Hj i Hi. cbn [l_rows leaf_of_s l_val] in *. replace i with 0%nat by lia. destruct (P d j) as ((g & delta & Pd & Hg & Dg) & _). apply (der_near g); auto. exists delta. split; auto. intros h Hh. rewrite pert_vec, Hg by (rewrite Rminus_0_r; auto). auto.
Qed.
Lemma leaf_v_ok : forall X e s, vwf e -> vdom e s -> leaf_ok X (fun _ => None) s (leaf_of_v e).
Proof.
  intros X e s W Dm. destruct (proj1 (proj2 (expr_main s (vwidth e))) e W Dm (le_n _)) as (D & v & ops & (Ev & Ej & C & I1 & P) & _). exists D, ops. split; [|auto].
  intros d j Hj i Hi. cbn [l_rows leaf_of_v l_val] in *. destruct (P d j) as ((g & delta & Pd & Hg & Dg) & _). apply (der_near (fun h => g h i)); auto. exists delta. split; auto. intros h Hh. rewrite pert_vec, Hg by auto. auto.
Qed.

(** ** differentials *)
Lemma basis_lemma : forall m r d k i, diff_ok m r 1 d -> (k < r)%nat -> (i < m)%nat -> applyBasis d k i = applyInto d (basis r k) i.
Proof. intros m r d k i H Hk Hi. rewrite (app_basis m r) by auto. apply (app_ext m r 1); auto. intros x y Hx Hy. symmetry. apply basis_unit; auto. Qed.
Lemma calc_lemma : forall m r d, diff_ok m r 1 d -> exists J, calcJac m r d = Ok (mkD m r J) /\ forall A i, (i < m)%nat -> applyInto d A i = mvmul r J (cv A) i.
Proof. intros m r d H. eexists. split; [apply (calc_ok m r); auto|]. intros A i Hi. apply (app_expand m r); auto. Qed.
Lemma convert_lemma : forall m n d, diff_ok m n 1 d -> kind_of d <> KMat -> exists J, convert m n d = Ok (mkD m n J) /\ forall A i, (i < m)%nat -> applyInto d A i = mvmul n J (cv A) i.
Proof. intros m n d H NK. destruct (convert_ok m n d H NK) as (J & E & HJ). exists J. split; auto. intros A i Hi. rewrite (app_ext m n 1 d A (col (cv A)) H); auto. - symmetry. exact (HJ (cv A) i Hi). - intros x y Hx Hy. unfold col, cv. replace y with 0%nat by lia. auto. Qed.
(* the conversion of a matrix differential forgets the rest of the chain *)
Lemma convert_wrong : exists d, diff_ok 1 1 1 d /\ convert 1 1 d = Ok (mkD 1 1 (fun _ _ => 1)) /\ applyInto d (fun _ _ => 1) 0%nat = -1.
Proof.
  exists (DCompMat 1 1 (fun _ _ => 1) (DComp 1 1 (fun T i k => - T i k) (DId 1))). split; [|split].
  - constructor. econstructor; [apply lin_neg|constructor].
  - reflexivity.
  - cbn. unfold cv, mmul. cbn. ring.
Qed.

(** ** refutations *)
Lemma norm_ub : forall X d s, dv_dim d <> 1%nat -> sxjac X (SNorm (XUn UNegate (XVec d))) s 1 = UB.
Proof.
  intros X d s N. cbn [sxjac xjac xrows xcols un_rows un_cols addTo]. unfold calcJac. cbn [dcols Nat.eqb negb drange]. replace (dv_dim d =? 1)%nat with false by (symmetry; apply Nat.eqb_neq; auto). reflexivity.
Qed.
Lemma entry_ub : forall X d s, dv_dim d <> 1%nat -> xjacobian X (XScaleS (XVec d) (SEntry (XVec d) 0 0)) s = UB.
Proof.
  intros X d s N. unfold xjacobian. cbn [xjac xrows xcols sxjac addTo]. unfold under. cbn [convert]. unfold calcJac. cbn [dcols Nat.eqb negb drange]. rewrite Nat.eqb_refl. cbn [bind].
  destruct (dv_dim d) as [|[|n]]; [reflexivity|contradiction|reflexivity].
Qed.
Lemma exp_wrong : forall X d m, qkin_ok X -> dv_dim d = 3%nat -> dv_active d = true -> (0 <= dv_block d)%Z -> forall s, (forall k, (k < 3)%nat -> s (dv_id d) k = 0) ->
  let e := XUn (UQConj m) (XExp m (XExt (vleaf d))) in let kd := fun _ => None in
  xwf kd e /\ xdom X kd s e /\ exists ops c, xjacobian X e s = Ok ops /\ jc_run _ sp_addJ 16 (sp_init 4) ops = Ok c /\
    forall j, (j < 3)%nat -> jacobian_entry (jc_store c) d (iI m + j) j = 1 /\ derivable_pt_lim (fun h => xval X e (pert X kd s d j h) (iI m + j)%nat 0%nat) 0 (-1).
Proof.
  intros X d m K E3 Ea Eb s Z e kd.
  assert (L : leaf_ok X kd s (vleaf d)).
  { exists (fun d' i j => if (dv_id d =? dv_id d')%nat then delta i j else 0), [CAddId d]. split; [|split; [reflexivity|split; [apply conV|auto]]]. intros d' j Hj i Hi. cbn [l_val vleaf]. unfold pert, kd.
    destruct (dv_id d =? dv_id d')%nat; [|exact (der_const _ 0)]. unfold delta. destruct (i =? j)%nat; [|exact (der_const _ 0)]. eapply der_eq; [|apply (der_plus (fun _ => s (dv_id d) i) (fun h => h) 0 0 1); [apply der_const|apply der_id]]. cbn. ring. }
  assert (Wf : xwf kd e). { unfold e. cbn. auto. }
  assert (Dm : xdom X kd s e). { unfold e. cbn [xdom un_dom]. auto. }
  split; [exact Wf|]. split; [exact Dm|].
  assert (Er : xjacobian X e s = Ok (scope (CApply (mkD 4 3 (dexpM X m (s (dv_id d))))) [CAddId d])).
  { unfold xjacobian, e. cbn [xjac xrows xcols un_rows un_cols l_rows vleaf l_jac l_val xval]. unfold under. rewrite E3. reflexivity. }
  assert (Wd : wf_dvs [d]). { split; [|split]; intros; cbn in *; intuition (try subst; auto). }
  assert (Cn : contributes 3 3 0 [CAddId d] (fun d' i j => if (dv_id d =? dv_id d')%nat then delta i j else 0)) by (rewrite <- E3; apply conV).
  assert (Rm : stack_room 4 16 3 1) by (split; [reflexivity|split; reflexivity]).
  assert (Cm : contributes 4 3 1 (scope (CApply (mkD 4 3 (dexpM X m (s (dv_id d))))) [CAddId d]) (fun d' => mmul 3 (dexpM X m (s (dv_id d))) (fun i j => if (dv_id d =? dv_id d')%nat then delta i j else 0))) by (apply conM; auto).
  assert (H16 : (0 < 16)%nat) by lia.
  destruct (contributes_entry 4 3 1 _ _ 16 [d] Cm H16 eq_refl (stack_room_room _ _ _ _ Rm) Wd (incl_refl _)) as (c & Ec & _ & En).
  eexists. exists c. split; [exact Er|]. split; [exact Ec|]. intros j Hj.
  assert (DE : dexpM X m (s (dv_id d)) (iI m + j)%nat j = 1).
  { unfold dexpM, iI. destruct m as [[] t]; cbn [from_last real_first]; cbn [Nat.add]; rewrite (dexp_zero X K) by (auto; lia); unfold delta; rewrite Nat.eqb_refl; reflexivity. }
  split.
  - rewrite entry_R, En; [|left; reflexivity|exact Ea|unfold iI; destruct (real_first m); lia|lia]. rewrite Nat.eqb_refl. unfold mmul. transitivity (dexpM X m (s (dv_id d)) (iI m + j)%nat j); [exact (ksum_delta_r 3 j (dexpM X m (s (dv_id d)) (iI m + j)%nat) Hj)|exact DE].
  - assert (V : vtan 3 (fun h => pert X kd s d j h (dv_id d)) (fun k => delta k j)).
    { intros k Hk. unfold pert, kd. rewrite Nat.eqb_refl. unfold delta. destruct (k =? j)%nat; [|exact (der_const _ 0)]. eapply der_eq; [|apply (der_plus (fun _ => s (dv_id d) k) (fun h => h) 0 0 1); [apply der_const|apply der_id]]. cbn. ring. }
    pose proof (tan_qconj m _ _ (tan_exp X m _ _ K V)) as H. cbn beta in H. rewrite (pert_zero X kd s d j K) in H. assert (Hi : (iI m + j < 4)%nat) by (unfold iI; destruct (real_first m); lia). specialize (H _ Hi).
    eapply der_eq; [|exact H]. unfold qconj. replace ((iI m <=? iI m + j)%nat && (iI m + j <? iI m + 3)%nat) with true by (symmetry; apply andb_true_iff; split; [apply Nat.leb_le|apply Nat.ltb_lt]; lia).
    replace (mvmul 3 (dexpM X m (s (dv_id d))) (fun k => delta k j) (iI m + j)%nat) with 1; [ring|]. rewrite <- DE. symmetry. exact (ksum_delta_r 3 j (dexpM X m (s (dv_id d)) (iI m + j)%nat) Hj).
Qed.
Lemma left_wrong : forall X d m, qkin_ok X -> dv_dim d = 3%nat -> forall s, (forall i, (i < 4)%nat -> s (dv_id d) i = from_last m (fun i => delta i 3) i) ->
  let e := XQuat d m LEFT_TRANSLATED in let kd := fun id => if (id =? dv_id d)%nat then Some (m, LEFT_TRANSLATED) else None in
  xwf kd e /\ xjacobian X e s = Ok [] /\ forall j, (j < 3)%nat -> derivable_pt_lim (fun h => xval X e (pert X kd s d j h) (iI m + j)%nat 0%nat) 0 1.
Proof.
  intros X d m K E3 s Z e kd. split; [unfold e, kd; cbn; rewrite Nat.eqb_refl; auto|]. split; [reflexivity|]. intros j Hj.
  assert (Hi : (iI m + j < 4)%nat) by (unfold iI; destruct (real_first m); lia). pose proof (tan_update X m LEFT_TRANSLATED (s (dv_id d)) j K Hj _ Hi) as H. cbn beta in H.
  unfold e. cbn [xval]. unfold col, pert, kd. rewrite !Nat.eqb_refl. replace (iI m + j <? 4)%nat with true by (symmetry; apply Nat.ltb_lt; auto). eapply der_eq; [|exact H].
  unfold dUpdate. rewrite xorb_false_r.
  assert (J1 : forall i, (i < 4)%nat -> qplus X (to_last m (s (dv_id d))) i j = qmul LRT (fun i => delta i j) (to_last m (s (dv_id d))) i).
  { intros i Hi'. rewrite <- (plus_mul X K) by auto. symmetry. apply (ksum_delta_r 4 j (qplus X (to_last m (s (dv_id d))) i)). lia. }
  assert (J2 : forall i, (i < 4)%nat -> qoplus X (to_last m (s (dv_id d))) i j = qmul LRT (to_last m (s (dv_id d))) (fun i => delta i j) i).
  { intros i Hi'. rewrite <- (oplus_mul X K) by auto. symmetry. apply (ksum_delta_r 4 j (qoplus X (to_last m (s (dv_id d))) i)). lia. }
  destruct m as [[] []]; cbn [from_last real_first traditional iI Nat.add] in *; rewrite ?J1, ?J2 by lia; cases3 j Hj; cbn; rewrite !Z by lia; cbn; ring.
Qed.

Lemma mtan_const : forall r c A, mtan r c (fun _ => A) (fun _ _ => 0).
Proof. intros r c A i k _ _. exact (der_const _ 0). Qed.
Lemma unary_tan : forall X o r c F T, qkin_ok X -> un_wf o r c -> mtan r c F T -> curve_dom o r F ->
  mtan (un_rows o r c) (un_cols o r c) (fun h => un_val X o r (F h)) (un_diff X o r (F 0) T).
Proof.
  intros X o r c F T K W HT HD.
  assert (E : forall d j h, pert X (fun _ => None) (fun _ _ => 0) d j h 0%nat 0%nat = if (0 =? dv_id d)%nat && (0 =? j)%nat then h else 0).
  { intros d j h. unfold pert. destruct (0 =? dv_id d)%nat; cbn [andb]; auto. destruct (0 =? j)%nat; auto. ring. }
  set (d0 := mkDv 0%nat true 0%Z 0%Z 1%nat 1 : dvr). set (f := fun s : state => F (s 0%nat 0%nat)).
  assert (M : mtan (un_rows o r c) (un_cols o r c) (fun h => un_val X o r (f (pert X (fun _ => None) (fun _ _ => 0) d0 0 h))) (un_diff X o r (F 0) T)).
  { apply (un_tan X (fun _ => None) o (fun _ _ => 0) r c f (F 0) (fun d j => if (0 =? dv_id d)%nat && (0 =? j)%nat then T else fun _ _ => 0)); auto.
    - intros d j Hj. unfold f. intros i k Hi Hk. destruct ((0 =? dv_id d)%nat && (0 =? j)%nat) eqn:B.
      + apply (der_ext (fun h => F h i k)); [intros h; rewrite E, B; auto|apply HT; auto].
      + apply (der_ext (fun _ => F 0 i k)); [intros h; rewrite E, B; auto|exact (der_const _ 0)].
    - destruct o; cbn [un_dom curve_dom] in *; auto. intros d j Hj. unfold f. eapply near_impl; [|exact HD]. cbn beta. intros h H. rewrite E. destruct (_ && _); auto. apply (near_0 _ HD).
    - intros d j. apply (pert_zero X); auto. }
  intros i k Hi Hk. specialize (M i k Hi Hk). cbn beta in M. apply (der_ext (fun h => un_val X o r (f (pert X (fun _ => None) (fun _ _ => 0) d0 0 h)) i k)); [intros h; unfold f; rewrite E; cbn; auto|exact M].
Qed.
