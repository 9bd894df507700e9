(** * Differentials and operations (proofs only) *)
From Coq Require Import Arith Lia List ZArith NArith Bool Reals Lra Ring FunctionalExtensionality.
From Verif Require Import Lib_Ring Lib_Real Lib_Res Lib_MatInv MatrixStack_Model DesignVar_Base Jacobian_Model Expr_Base Scalar_Model Scalar_Spec Scalar_Proofs MatExpr_Model MatExpr_Spec.
Import ListNotations.
Local Open Scope R_scope.

(** ** linear maps *)
Lemma lin_id : forall r c, linear_map r c r c (fun T => T).
Proof. intros r c. split; [|split]; intros; try (intros i k Hi Hk; reflexivity). auto. Qed.
Lemma app_lin : forall m r c d, diff_ok m r c d ->
  (forall A B, meq r c A B -> forall i, (i < m)%nat -> applyInto d A i = applyInto d B i) /\
  (forall A B i, (i < m)%nat -> applyInto d (madd A B) i = applyInto d A i + applyInto d B i) /\
  (forall a A i, (i < m)%nat -> applyInto d (mscale a A) i = a * applyInto d A i).
Proof.
  intros m r c d H. induction H as [r c| |r c r' c' f next (L1 & L2 & L3) H (I1 & I2 & I3)|c A|r c A next H (I1 & I2 & I3)]; cbn [applyInto].
  - split; [|split]; intros; ring.
  - split; [|split]; intros; [|reflexivity|reflexivity]. unfold cv. apply H; auto.
  - split; [|split]; intros.
    + apply I1; auto.
    + rewrite <- I2 by auto. apply I1; auto.
    + rewrite <- I3 by auto. apply I1; auto.
  - split; [|split]; intros; unfold mvmul, cv.
    + apply ksum_ext. intros k Hk. rewrite (H k 0%nat) by (auto; lia). reflexivity.
    + etransitivity; [|exact (ksum_add c (fun k => A i k * A0 k 0%nat) (fun k => A i k * B k 0%nat))]. apply ksum_ext. intros. unfold madd. cbn. ring.
    + etransitivity; [|exact (ksum_mul_l c a (fun k => A i k * A0 k 0%nat))]. apply ksum_ext. intros. unfold mscale. cbn. ring.
  - split; [|split]; intros.
    + apply I1; auto. intros x y Hx Hy. unfold mmul. apply ksum_ext. intros k Hk. rewrite (H0 k y) by (auto; lia). reflexivity.
    + rewrite <- I2 by auto. apply I1; auto. intros x y Hx Hy. exact (mmul_add_r c A A0 B x y).
    + rewrite <- I3 by auto. apply I1; auto. intros x y Hx Hy. exact (mmul_scale_r c a A A0 x y).
Qed.
Lemma app_ext : forall m r c d A B, diff_ok m r c d -> meq r c A B -> forall i, (i < m)%nat -> applyInto d A i = applyInto d B i.
Proof. intros m r c d A B H. apply (proj1 (app_lin _ _ _ _ H)). Qed.
Lemma app_add : forall m r c d A B i, diff_ok m r c d -> (i < m)%nat -> applyInto d (madd A B) i = applyInto d A i + applyInto d B i.
Proof. intros m r c d A B i H. apply (proj1 (proj2 (app_lin _ _ _ _ H))). Qed.
Lemma app_scale : forall m r c d a A i, diff_ok m r c d -> (i < m)%nat -> applyInto d (mscale a A) i = a * applyInto d A i.
Proof. intros m r c d a A i H. apply (proj2 (proj2 (app_lin _ _ _ _ H))). Qed.
Lemma app_zero : forall m r c d A i, diff_ok m r c d -> (i < m)%nat -> (forall x y, (x < r)%nat -> (y < c)%nat -> A x y = 0) -> applyInto d A i = 0.
Proof.
  intros m r c d A i H Hi Z. rewrite (app_ext m r c d A (mscale 0 A) H) by (auto; intros x y Hx Hy; rewrite Z by auto; unfold mscale; cbn; rewrite Z by auto; ring). rewrite (app_scale m r c) by auto. ring.
Qed.
Lemma app_sum : forall m r c d n (F : nat -> mat R) (a : nat -> R) i, diff_ok m r c d -> (i < m)%nat ->
  applyInto d (fun x y => ksum n (fun k => a k * F k x y)) i = ksum n (fun k => a k * applyInto d (F k) i).
Proof.
  intros m r c d n F a i H Hi. induction n as [|n IH]; cbn [ksum].
  - apply (app_zero m r c); auto.
  - transitivity (applyInto d (madd (fun x y => ksum n (fun k => a k * F k x y)) (mscale (a n) (F n))) i); [apply (app_ext m r c); auto; intros x y _ _; reflexivity|].
    rewrite (app_add m r c), (app_scale m r c), IH by auto. reflexivity.
Qed.
Definition unitv (k : nat) : mat R := fun i _ => delta i k.
Lemma basis_unit : forall r k, (k < r)%nat -> meq r 1 (basis r k) (unitv k).
Proof.
  intros r k H i y Hi Hy. unfold basis, unitv, delta. rewrite Nat.mod_small, Nat.div_small by auto. destruct (i =? k)%nat; auto. replace (y =? 0)%nat with true by (symmetry; apply Nat.eqb_eq; lia). reflexivity.
Qed.
Lemma app_basis : forall m r d k i, diff_ok m r 1 d -> (k < r)%nat -> (i < m)%nat -> applyBasis d k i = applyInto d (unitv k) i.
Proof.
  intros m r d k i H. remember 1%nat as c eqn:Ec. destruct H as [r c| |r c r' c' f next (L1 & _) H|c A|r c A next H]; intros Hk Hi; cbn [applyBasis applyInto]; auto.
  - apply delta_sym.
  - subst c. apply (app_ext m r' c'); auto. apply L1. apply basis_unit. auto.
  - symmetry. exact (ksum_delta_r c k (A i) Hk).
  - apply (app_ext m r 1); auto. intros x y Hx Hy. symmetry. exact (ksum_delta_r c k (A x) Hk).
Qed.
Lemma app_expand : forall m r d v i, diff_ok m r 1 d -> (i < m)%nat -> applyInto d v i = ksum r (fun k => applyBasis d k i * v k 0%nat).
Proof.
  intros m r d v i H Hi. transitivity (applyInto d (fun x y => ksum r (fun k => v k 0%nat * unitv k x y)) i).
  - apply (app_ext m r 1); auto. intros x y Hx Hy. replace y with 0%nat by lia. unfold unitv. rewrite <- (ksum_delta_l r x (fun k => v k 0%nat) Hx) at 1. apply ksum_ext. intros. cbn. ring.
  - rewrite (app_sum m r 1) by auto. apply ksum_ext. intros k Hk. rewrite (app_basis m r d k i) by auto. cbn. ring.
Qed.
Lemma range_ok : forall m r c d, diff_ok m r c d -> drange d = Some m \/ drange d = None.
Proof. intros m r c d H. induction H; cbn; auto. Qed.
Lemma cols_ok : forall m r c d, diff_ok m r c d -> c = 1%nat -> dcols d = 1%nat.
Proof. intros m r c d H E. destruct H; auto. Qed.
Lemma calc_ok : forall m r d n, diff_ok m r 1 d -> calcJac m n d = Ok (mkD m n (fun i k => applyBasis d k i)).
Proof. intros m r d n H. unfold calcJac. rewrite (cols_ok _ _ _ _ H eq_refl). cbn. destruct (range_ok _ _ _ _ H) as [-> | ->]; auto. rewrite Nat.eqb_refl. auto. Qed.

(** ** leaves *)
Lemma conAdd : forall m w depth d0 J, contributes m w depth [CAdd d0 (mkD m (dv_dim d0) J)] (fun d i j => if (dv_id d0 =? dv_id d)%nat then J i j else 0).
Proof. intros. exact (@con_add R RRing m w depth d0 J). Qed.
(* as con_ext, but only for the columns of the design variable, and for a design variable of the same identity only if it has the same dimension *)
Lemma con_ext' : forall m w depth (ops : list (@cop R)) (D1 D2 : dvr -> mat R), (forall d i j, (i < m)%nat -> (j < dv_dim d)%nat -> same_dim d ops -> D1 d i j = D2 d i j) -> contributes m w depth ops D1 -> contributes m w depth ops D2.
Proof.
  intros m w depth ops D1 D2 E (K1 & H). split; auto. intros n al fs P Q. destruct (H n al fs P Q) as (cs & R1 & T). exists cs. split; auto. intros d i j Sd Hj. rewrite T by auto. apply ksum_ext. intros. rewrite E by auto. auto.
Qed.
Definition sees (rows m : nat) (k : dkind) : Prop := (k = KId \/ k = KPlain) \/ rows = m.
Lemma add_ok : forall rows m d dv w depth, diff_ok m (dv_dim dv) 1 d -> sees rows m (kind_of d) ->
  exists ops, addTo rows d dv = Ok ops /\ contributes m w depth ops (fun d' i j => if (dv_id dv =? dv_id d')%nat then applyInto d (unitv j) i else 0) /\ (forall x, In x (ops_dvs ops) -> x = dv).
Proof.
  intros rows m d dv w depth H S. assert (B : exists ops, addTo rows d dv = Ok ops /\ (forall x, In x (ops_dvs ops) -> x = dv) /\
    (ops = [] /\ d = DNull \/ ops = [CAddId dv] /\ d = DId m \/ ops = [CAdd dv (mkD m (dv_dim dv) (fun i k => applyBasis d k i))])).
  { remember (dv_dim dv) as r eqn:Er. remember 1%nat as c eqn:Ec. destruct H as [r c| |r c r' c' f next L H|c A|r c A next H]; cbn [addTo].
    - exists []. split; auto. split; [intros x []|]. auto.
    - exists [CAddId dv]. split; auto. split; [intros x [<-|[]]; auto|]. auto.
    - subst c. destruct S as [[S|S]|S]; [discriminate|discriminate|]. subst rows. rewrite (calc_ok m r) by (econstructor; eauto). cbn [bind]. eexists. split; [reflexivity|]. split; [intros x [<-|[]]; auto|]. right. right. rewrite <- Er. auto.
    - eexists. split; [reflexivity|]. split; [intros x [<-|[]]; auto|]. right. right. reflexivity.
    - destruct S as [[S|S]|S]; [destruct next; discriminate|destruct next; discriminate|]. subst rows. rewrite (calc_ok m c) by (econstructor; eauto). cbn [bind]. eexists. split; [reflexivity|]. split; [intros x [<-|[]]; auto|]. right. right. rewrite <- Er. auto. }
  destruct B as (ops & E & I1 & B). exists ops. split; auto. split; auto. destruct B as [[-> ->]|[[-> ->]| ->]].
  - eapply con_ext; [|apply con0]. intros d' i j Hi. cbn [applyInto]. destruct (_ =? _)%nat; auto.
  - apply (con_ext' m w depth _ (fun d' i j => if (dv_id dv =? dv_id d')%nat then delta i j else 0)).
    + intros d' i j Hi Hj Sd. destruct (_ =? _)%nat; auto.
    + assert (Ed : dv_dim dv = m). { remember 1%nat as c1. inversion H. auto. } rewrite <- Ed at 1. apply conV.
  - eapply con_ext'; [|apply conAdd]. intros d' i j Hi Hj Sd. cbn beta. destruct (dv_id dv =? dv_id d')%nat eqn:Ei; auto. apply (app_basis m (dv_dim dv)); auto.
    apply Nat.eqb_eq in Ei. inversion Sd as [|? ? S1 S2 E1]. rewrite (S1 Ei). auto.
Qed.
Lemma addJ_ok : forall rows m d dv w depth r A, diff_ok m r 1 d -> sees rows m (kind_of d) ->
  exists ops, addToJ rows d dv (mkD r (dv_dim dv) A) = Ok ops /\ contributes m w depth ops (fun d' i j => if (dv_id dv =? dv_id d')%nat then applyInto d (fun x _ => A x j) i else 0) /\ (forall x, In x (ops_dvs ops) -> x = dv).
Proof.
  intros rows m d dv w depth r A H S.
  assert (G : forall r' A' next, diff_ok m r' 1 next -> (forall j, (j < dv_dim dv)%nat -> forall i, (i < m)%nat -> applyInto next (fun x _ => A' x j) i = applyInto d (fun x _ => A x j) i) -> rows = m ->
    exists ops, addTo rows (DCompMat r' (dv_dim dv) A' next) dv = Ok ops /\ contributes m w depth ops (fun d' i j => if (dv_id dv =? dv_id d')%nat then applyInto d (fun x _ => A x j) i else 0) /\ (forall x, In x (ops_dvs ops) -> x = dv)).
  { intros r' A' next Hn En Er. destruct (add_ok rows m (DCompMat r' (dv_dim dv) A' next) dv w depth) as (ops & E & C & I1); [constructor; auto|right; auto|]. exists ops. split; auto. split; auto.
    eapply con_ext'; [|exact C]. intros d' i j Hi Hj Sd. cbn beta. destruct (dv_id dv =? dv_id d')%nat eqn:Ei; auto. apply Nat.eqb_eq in Ei.
    assert (Hj' : (j < dv_dim dv)%nat).
    { cbn [addTo] in E. unfold calcJac in E. cbn [dcols Nat.eqb negb] in E. destruct (drange _) as [n|]; [destruct (n =? rows)%nat; [|discriminate]|]; cbn [bind] in E; injection E as <-; inversion Sd as [|? ? S1 S2 E1]; rewrite (S1 Ei); auto. }
    rewrite <- (En j Hj' i Hi). cbn [applyInto]. apply (app_ext m r' 1); auto. intros x y Hx Hy. exact (ksum_delta_r (dv_dim dv) j (A' x) Hj'). }
  remember 1%nat as c eqn:Ec. destruct H as [r c| |r c r' c' f next L H|c0 A0|r' c0 A0 next H]; cbn [addToJ d_rows d_cols d_at].
  - exists []. split; auto. split; [|intros x []]. eapply con_ext; [|apply con0]. intros d' i j Hi. cbn [applyInto]. destruct (_ =? _)%nat; auto.
  - eexists. split; [reflexivity|]. split; [|intros x [<-|[]]; auto]. eapply con_ext; [|apply conAdd]. intros d' i j Hi. cbn [applyInto]. reflexivity.
  - subst c. cbn [Nat.eqb negb]. destruct S as [[S|S]|S]; try discriminate. apply G; auto. econstructor; eauto.
  - eexists. split; [reflexivity|]. split; [|intros x [<-|[]]; auto]. eapply con_ext; [|apply conAdd]. intros d' i j Hi. cbn [applyInto]. destruct (_ =? _)%nat; reflexivity.
  - destruct S as [[S|S]|S]; [destruct next; discriminate|destruct next; discriminate|]. apply G; auto.
Qed.
Lemma convert_ok : forall m n d, diff_ok m n 1 d -> kind_of d <> KMat ->
  exists A, convert m n d = Ok (mkD m n A) /\ forall v i, (i < m)%nat -> ksum n (fun k => A i k * v k) = applyInto d (col v) i.
Proof.
  intros m n d H NK. pose proof (fun v => app_expand m n d (col v)) as X. remember 1%nat as c eqn:Ec. destruct H as [r c| |r c r' c' f next L H|c A|r c A next H]; cbn [convert].
  - eexists. split; [reflexivity|]. intros v i Hi. exact (@ksum_zero R RRing r (fun k => 0 * v k) (fun k _ => Rmult_0_l (v k))).
  - rewrite Nat.eqb_refl. eexists. split; [reflexivity|]. intros v i Hi. exact (ksum_delta_l m i v Hi).
  - subst c. rewrite (calc_ok m r) by (econstructor; eauto). eexists. split; [reflexivity|]. intros v i Hi. symmetry. apply X; auto. econstructor; eauto.
  - rewrite !Nat.eqb_refl. eexists. split; [reflexivity|]. intros v i Hi. reflexivity.
  - destruct next; try (exfalso; apply NK; reflexivity). inversion H; subst. rewrite !Nat.eqb_refl. eexists. split; [reflexivity|]. intros v i Hi. reflexivity.
Qed.
