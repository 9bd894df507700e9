(** * C55: an instance of the kinematics functions and concrete expressions (examples only) *)
From Coq Require Import Arith Lia List ZArith NArith Bool Reals Lra Ring Field ClassicalEpsilon.
From Verif Require Import Lib_Ring Lib_Real Lib_Res Lib_MatInv MatrixStack_Model MatrixStack_Spec DesignVar_Base Jacobian_Model Jacobian_Spec Expr_Base Scalar_Model Scalar_Spec Scalar_Proofs Scalar_Proofs2
  MatExpr_Model MatExpr_Spec MatExpr_Proofs MatExpr_Proofs2 MatExpr_Proofs3 MatExpr_Proofs4 Scalar_Toy.
Import ListNotations.
Local Open Scope R_scope.

(* quarter of the squared length *)
Definition q4 (v : vec R) : R := (v 0%nat * v 0%nat + v 1%nat * v 1%nat + v 2%nat * v 2%nat) / 4.
Definition cayley (v : vec R) : vec R := fun i => if (i =? 3)%nat then (1 - q4 v) / (1 + q4 v) else v i / (1 + q4 v).
Definition dcayley (v : vec R) : mat R := fun i k => (if (i =? 3)%nat then - (v k / 2) else delta i k) / (1 + q4 v) - (if (i =? 3)%nat then 1 - q4 v else v i) * (v k / 2) / ((1 + q4 v) * (1 + q4 v)).
Definition clog (q : vec R) : vec R := fun i => 2 * q i / (1 + q 3%nat).
Definition dclog (q : vec R) : mat R := fun i k => if (k =? 3)%nat then - (2 * q i) / ((1 + q 3%nat) * (1 + q 3%nat)) else 2 * delta i k / (1 + q 3%nat).
Definition tplus (p : vec R) : mat R := fun i k => qmul LRT (fun x => delta x k) p i.
Definition toplus (p : vec R) : mat R := fun i k => qmul LRT p (fun x => delta x k) i.
Definition tinv (n : nat) (A : mat R) : mat R := epsilon (inhabits A) (inverse n A).
Definition XT : qkin := mkQkin cayley clog dcayley dclog tplus toplus tinv (fun q => 1 + q 3%nat <> 0).
Lemma q4_pos : forall v, 0 < 1 + q4 v.
Proof. intros v. unfold q4. pose proof (Rle_0_sqr (v 0%nat)). pose proof (Rle_0_sqr (v 1%nat)). pose proof (Rle_0_sqr (v 2%nat)). unfold Rsqr in *. lra. Qed.
Lemma q4_tan : forall v v', vtan 3 v v' -> derivable_pt_lim (fun h => q4 (v h)) 0 ((v 0 0%nat * v' 0%nat + v 0 1%nat * v' 1%nat + v 0 2%nat * v' 2%nat) / 2).
Proof.
  intros v v' H. pose proof (H 0%nat ltac:(lia)) as H0. pose proof (H 1%nat ltac:(lia)) as H1. pose proof (H 2%nat ltac:(lia)) as H2. unfold q4, Rdiv. cbn beta in *.
  der_all. cbn. field.
Qed.
Lemma XT_ok : qkin_ok XT.
Proof.
  split; cbn [qexp qlog dqexp dqlog qplus qoplus minv qlogd XT].
  - intros v v' H i Hi. pose proof (q4_tan v v' H) as Q. assert (P : 1 + q4 (v 0) <> 0) by (pose proof (q4_pos (v 0)); lra).
    assert (I1 : derivable_pt_lim (fun h => / (1 + q4 (v h))) 0 (- ((v 0 0%nat * v' 0%nat + v 0 1%nat * v' 1%nat + v 0 2%nat * v' 2%nat) / 2) / ((1 + q4 (v 0)) * (1 + q4 (v 0))))).
    { apply (der_inv (fun h => 1 + q4 (v h))); auto. der_all. 2: exact Q. cbn. ring. }
    unfold cayley, Rdiv. destruct (Nat.eqb_spec i 3) as [->|N].
    + eapply der_eq; [|apply (der_mul (fun h => 1 - q4 (v h)) (fun h => / (1 + q4 (v h))) 0); [apply (der_minus (fun _ => 1) (fun h => q4 (v h)) 0); [apply der_const|exact Q]|exact I1]].
      cbn [mvmul]. unfold mvmul, dcayley. cbn. field. exact P.
    + assert (H3 : (i < 3)%nat) by lia. eapply der_eq; [|apply (der_mul (fun h => v h i) (fun h => / (1 + q4 (v h))) 0); [exact (H i H3)|exact I1]].
      unfold mvmul, dcayley. replace (i =? 3)%nat with false by (symmetry; apply Nat.eqb_neq; auto). cases3 i H3; cbn; field; exact P.
  - intros q q' H D i Hi. assert (I1 : derivable_pt_lim (fun h => / (1 + q h 3%nat)) 0 (- q' 3%nat / ((1 + q 0 3%nat) * (1 + q 0 3%nat)))).
    { apply (der_inv (fun h => 1 + q h 3%nat)); auto. eapply der_eq; [|apply (der_plus (fun _ => 1) (fun h => q h 3%nat) 0); [apply der_const|apply H; lia]]. ring. }
    unfold clog, Rdiv. eapply der_eq; [|apply (der_mul (fun h => 2 * q h i) (fun h => / (1 + q h 3%nat)) 0); [apply (der_scal (fun h => q h i)); apply H; lia|exact I1]].
    unfold mvmul, dclog. cases3 i Hi; cbn; field; exact D.
  - intros v Z i Hi. assert (E : q4 v = 0) by (unfold q4; rewrite !Z by lia; field). unfold cayley. rewrite E. cases4 i Hi; cbn; rewrite ?Z by lia; field.
  - intros v Z i k Hi Hk. assert (E : q4 v = 0) by (unfold q4; rewrite !Z by lia; field). unfold dcayley. rewrite E, (Z k Hk). cases4 i Hi; cases3 k Hk; cbn; rewrite ?Z by lia; field.
  - intros p x i Hi. unfold mvmul, tplus. cases4 i Hi; cbn; ring.
  - intros p x i Hi. unfold mvmul, toplus. cases4 i Hi; cbn; ring.
  - intros n A (B & HB). unfold tinv. apply epsilon_spec. exists B. exact HB.
Qed.

(* the design variables: a rotation, two points and a scalar *)
Definition dQ : dvr := mkDv 0%nat true 0%Z 0%Z 3%nat 1.
Definition dP : dvr := mkDv 1%nat true 1%Z 1%Z 3%nat 1.
Definition dW : dvr := mkDv 2%nat true 2%Z 2%Z 3%nat 1.
Definition dS : dvr := mkDv 3%nat true 3%Z 3%Z 1%nat 1.
Definition kdT (m : qmode) : kinds := fun id => if (id =? 0)%nat then Some (m, RIGHT_TRANSLATED) else None.
Definition sT : state := fun id i => if (id =? 0)%nat then (if (i =? 0)%nat then 4 / 5 else if (i =? 3)%nat then 3 / 5 else 0) else INR (id + i).
Definition AT : mat R := fun i k => if (i =? k)%nat then 2 else if (i =? 0)%nat && (k =? 1)%nat then 1 else 0.
Definition BT : mat R := fun i k => if (i =? k)%nat then / 2 else if (i =? 0)%nat && (k =? 1)%nat then - / 4 else 0.
(* rotate q (p x (A^-1 * (w * s))) *)
Definition eT (m : qmode) : mx := XBin (BRotate m) (XQuat dQ m RIGHT_TRANSLATED) (XBin BCross (XVec dP) (XBin BMul (XUn UInverse (XConst 3 3 AT)) (XScaleS (XExt (vleaf dW)) (SExt (vleaf dS))))).
(* one component of exp(p) * q^-1 *)
Definition cT (m : qmode) : sx := SEntry (XBin (BQMul m) (XExp m (XVec dP)) (XUn (UQInverse m) (XQuat dQ m RIGHT_TRANSLATED))) 2 0.
Lemma vleaf_ok : forall X kd s d, kd (dv_id d) = None -> leaf_ok X kd s (vleaf d).
Proof.
  intros X kd s d E. exists (fun d' i j => if (dv_id d =? dv_id d')%nat then delta i j else 0), [CAddId d]. split; [|split; [reflexivity|split; [apply conV|auto]]]. intros d' j Hj i Hi. cbn [l_val vleaf]. unfold pert.
  destruct (Nat.eqb_spec (dv_id d) (dv_id d')) as [Ed|Nd]; [|exact (der_const _ 0)]. rewrite ?E. unfold delta. destruct (i =? j)%nat; [|exact (der_const _ 0)]. eapply der_eq; [|apply (der_plus (fun _ => s (dv_id d) i) (fun h => h) 0 0 1); [apply der_const|apply der_id]]. cbn. ring.
Qed.
Lemma AT_inv : inverse 3 AT BT.
Proof. split; intros i k Hi Hk; unfold mmul, AT, BT; cases3 i Hi; cases3 k Hk; cbn; field. Qed.
Lemma wfT : forall l, incl l [dQ; dP; dW; dS] -> wf_dvs l.
Proof.
  intros l I1. split; [|split].
  - intros d d' H H' E. apply I1 in H, H'. cbn in H, H'. intuition (subst; cbn in *; try discriminate; auto).
  - intros d H A. apply I1 in H. cbn in H. intuition (subst; cbn; lia).
  - intros d d' H H' _ _ E. apply I1 in H, H'. cbn in H, H'. intuition (subst; cbn in *; try discriminate; auto).
Qed.
Lemma eT_hyps : forall m, qkin_ok XT /\ xwf (kdT m) (eT m) /\ xdom XT (kdT m) sT (eT m) /\ diff_ok 3 3 1 (DId 3) /\ fits_in 3 3 KId (eT m) /\ stack_room 3 16 (xwidth (eT m)) (xdepth (eT m)) /\ wf_dvs (xdvs (eT m)) /\ In dQ (xdvs (eT m)).
Proof.
  intros m. split; [apply XT_ok|]. split; [cbn; tauto|]. split.
  { cbn. split; [exact Logic.I|]. split; [exact Logic.I|]. split; [|split; apply vleaf_ok; reflexivity]. split; [exact Logic.I|]. intros d j _. apply near_all. intros h. exists BT. apply AT_inv. }
  split; [constructor|]. split; [cbn; intuition (auto; discriminate)|]. split; [split; [reflexivity|split; reflexivity]|]. split; [|left; reflexivity].
  apply wfT. intros x H. cbn in *. intuition (subst; auto).
Qed.
Lemma cT_hyps : forall m, qkin_ok XT /\ sxwf (kdT m) (cT m) /\ sxdom XT (kdT m) sT (cT m) /\ sfits_in 1 (cT m) /\ stack_room 1 16 (sxwidth (cT m)) (sxdepth (cT m)) /\ wf_dvs (sxdvs (cT m)) /\ In dP (sxdvs (cT m)).
Proof.
  intros m. split; [apply XT_ok|]. split; [cbn; intuition (auto; lia)|]. split.
  { cbn. split; [exact Logic.I|]. split; [exact Logic.I|]. unfold vdot, cv, col, sT. cbn. lra. }
  split; [cbn; intuition auto|]. split; [split; [reflexivity|split; reflexivity]|]. split; [|left; reflexivity].
  apply wfT. intros x H. cbn in *. intuition (subst; auto).
Qed.

(* a matrix-valued expression, p * transpose(p), below a differential that takes the second column: A -> 2 (A * e_1) *)
Definition oT : mx := XBin BMul (XVec dP) (XUn UTranspose (XVec dP)).
Definition dT : diff := DComp 3 3 (fun A i _ => A i 1%nat) (DMat 3 3 (mscale 2 delta)).
Lemma dT_ok : diff_ok 3 3 3 dT.
Proof.
  econstructor; [|constructor]. split; [|split].
  - intros A B E i k Hi Hk. apply E; lia.
  - intros A B i k Hi Hk. reflexivity.
  - intros a A i k Hi Hk. reflexivity.
Qed.
Lemma oT_hyps : forall m, qkin_ok XT /\ xwf (kdT m) oT /\ xdom XT (kdT m) sT oT /\ diff_ok 3 (xrows oT) (xcols oT) dT /\ fits_in 3 3 (kind_of dT) oT /\ stack_room 3 16 (xwidth oT) (xdepth oT) /\ wf_dvs (xdvs oT) /\ In dP (xdvs oT).
Proof.
  intros m. split; [apply XT_ok|]. split; [cbn; tauto|]. split; [cbn; tauto|]. split; [apply dT_ok|]. split; [cbn; tauto|]. split; [split; [reflexivity|split; reflexivity]|].
  split; [|left; reflexivity]. apply wfT. intros x H. cbn in *. intuition (subst; auto).
Qed.
(* a composed differential on vectors *)
Definition d1T : diff := DComp 3 1 (fun A i k => - A i k) (DMat 2 3 (fun i k => INR (i + k))).
Lemma d1T_ok : diff_ok 2 3 1 d1T /\ kind_of d1T <> KMat.
Proof. split; [econstructor; [apply lin_neg|constructor]|discriminate]. Qed.
(* curves: an invertible matrix that moves, a quaternion that is not zero *)
Definition cvT : R -> mat R := fun h i k => if (i =? k)%nat then 2 else if (i =? 0)%nat && (k =? 1)%nat then h else 0.
Lemma cvT_hyps : mtan 3 3 cvT (fun i k => if (i =? 0)%nat && (k =? 1)%nat then 1 else 0) /\ un_wf UInverse 3 3 /\ curve_dom UInverse 3 cvT.
Proof.
  split; [|split; [reflexivity|]].
  - intros i k Hi Hk. unfold cvT. cases3 i Hi; cases3 k Hk; cbn; try exact (der_const _ 0). apply der_id.
  - apply near_all. intros h. exists (fun i k => if (i =? k)%nat then / 2 else if (i =? 0)%nat && (k =? 1)%nat then - h / 4 else 0). split; intros i k Hi Hk; unfold mmul, cvT; cases3 i Hi; cases3 k Hk; cbn; field.
Qed.
Definition cqT : R -> mat R := fun h i _ => if (i =? 3)%nat then 1 else h * INR i.
Lemma cqT_hyps : forall m, mtan 4 1 cqT (fun i _ => if (i =? 3)%nat then 0 else INR i) /\ mtan 3 1 cqT (fun i _ => INR i) /\ un_wf (UQInverse m) 4 1 /\ curve_dom (UQInverse m) 4 cqT /\ bin_wf (BRotate m) 4 1 3 1.
Proof.
  intros m. split; [|split; [|split; [cbn; auto|split; [|cbn; auto]]]].
  - intros i k Hi Hk. unfold cqT. destruct (i =? 3)%nat; [exact (der_const _ 0)|]. eapply der_eq; [|apply (der_mul (fun h => h) (fun _ => INR i) 0); [apply der_id|apply der_const]]. ring.
  - intros i k Hi Hk. unfold cqT. destruct (Nat.eqb_spec i 3); [lia|]. eapply der_eq; [|apply (der_mul (fun h => h) (fun _ => INR i) 0); [apply der_id|apply der_const]]. ring.
  - cbn [curve_dom]. unfold vdot, cv, cqT. cbn. lra.
Qed.
Lemma ex1_leaf : swf ex1 /\ sdom ex1 st. Proof. split; apply ex1_hyps. Qed.
Lemma ex2_leaf : vwf ex2 /\ vdom ex2 st. Proof. split; apply ex2_hyps. Qed.
Lemma zero_hyps : qkin_ok XT /\ dv_dim dP = 3%nat /\ dv_active dP = true /\ (0 <= dv_block dP)%Z /\ (forall k, (k < 3)%nat -> (fun _ _ => 0 : R) (dv_id dP) k = 0).
Proof. split; [apply XT_ok|]. split; [reflexivity|]. split; [reflexivity|]. split; [cbn; lia|auto]. Qed.
Lemma ident_hyps : forall m, qkin_ok XT /\ dv_dim dQ = 3%nat /\ (forall i, (i < 4)%nat -> (fun _ => from_last m (fun i => @delta R RRing i 3)) (dv_id dQ) i = from_last m (fun i => delta i 3) i).
Proof. intros m. split; [apply XT_ok|]. split; auto. Qed.
