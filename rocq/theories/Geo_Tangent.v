(** * Derivatives of geometric expressions: one lemma per node (proofs only) *)
From Coq Require Import Arith Lia List ZArith NArith Bool Reals Lra.
From Verif Require Import Lib_Ring Lib_Real Lib_Res MatrixStack_Model MatrixStack_Spec DesignVar_Base Jacobian_Model Jacobian_Spec Expr_Base Scalar_Model Scalar_Spec Scalar_Calc Scalar_Proofs Geo_Model Geo_Spec Geo_Algebra Geo_Proofs.
Import ListNotations.
Local Open Scope R_scope.

Ltac ex := repeat (progress (unfold meq, mmul, mvmul, mtr, mid, trans_part, ang, rot_part; rewrite ?ks1, ?ks3, ?ks4, ?ks6; cbn [crossm])); unfold delta; cbn [Nat.eqb Nat.ltb Nat.leb Nat.sub Nat.add k0 k1 kadd kmul ksub kopp RRing].
Ltac exr := ex; ring.

Lemma der_near0 : forall f c, near (fun h => f h = c) -> derivable_pt_lim f 0 0.
Proof. intros f c (d & Hd & H). apply (der_near (fun _ => c) f 0 0 d); auto; [|apply der_const]. intros y Hy. rewrite Rminus_0_r in Hy. rewrite H; auto. Qed.
Lemma vel_ext : forall g a b, (forall k, (k < 3)%nat -> a k = b k) -> rot_velocity g a -> rot_velocity g b.
Proof. intros g a b E H i j Hi Hj. eapply der_eq; [|apply H; auto]. f_equal. unfold mmul. apply ksum_ext. intros k Hk. rewrite (crossm_ext a b); auto. Qed.
Lemma vel_near : forall g g' a, near (fun h => meq 3 3 (g h) (g' h)) -> rot_velocity g a -> rot_velocity g' a.
Proof.
  intros g g' a N H i j Hi Hj. assert (N0 := near_0 _ N). cbn beta in N0. destruct N as (d & Hd & N). apply (der_near (fun h => g h i j) _ 0 _ d); auto.
  - intros y Hy. rewrite Rminus_0_r in Hy. apply N; auto.
  - eapply der_eq; [|apply H; auto]. f_equal. unfold mmul. apply ksum_ext. intros k Hk. rewrite N0; auto.
Qed.

Lemma crossm_v : forall a b v i, (forall k, (k < 3)%nat -> a k = b k) -> mvmul 3 (crossm a) v i = mvmul 3 (crossm b) v i.
Proof. intros a b v i E. unfold mvmul. apply ksum_ext. intros k Hk. rewrite (crossm_ext a b); auto. Qed.
Lemma mv_ext : forall (A : mat R) a b i, (forall k, (k < 3)%nat -> a k = b k) -> mvmul 3 A a i = mvmul 3 A b i.
Proof. intros A a b i E. unfold mvmul. apply ksum_ext. intros k Hk. rewrite E; auto. Qed.

(** rotations *)
Lemma tR_mul : forall g1 g2 l1 l2, tanR g1 l1 -> tanR g2 l2 -> tanR (fun h => mmul 3 (g1 h) (g2 h)) (fun i => ksum 3 (fun k => g1 0 i k * l2 k) + ksum 3 (fun k => mid i k * l1 k)).
Proof.
  intros g1 g2 l1 l2 (N1 & V1) (N2 & V2). split; [eapply near_mono; [|apply (near_and _ _ N1 N2)]; intros h (H1 & H2); apply rot_mul; auto|].
  intros i j Hi Hj. eapply der_eq; [|apply (der_mm 3 g1 g2 (fun k => - mmul 3 (crossm l1) (g1 0) i k) (fun k => - mmul 3 (crossm l2) (g2 0) k j)); intros; [apply V1|apply V2]; auto].
  assert (H : mmul 3 (g1 0) (mmul 3 (crossm l2) (g2 0)) i j = mmul 3 (crossm (mvmul 3 (g1 0) l2)) (mmul 3 (g1 0) (g2 0)) i j).
  { rewrite <- !mul_assoc. unfold mmul at 1 3. apply ksum_ext. intros k Hk. rewrite rot_cross_m; auto. apply near_0 in N1. auto. }
  apply (eq_by _ _ _ _ (eq_sym H)). idx i; exr.
Qed.
Lemma tR_inv : forall g l, tanR g l -> tanR (fun h => mtr (g h)) (fun i => ksum 3 (fun k => - mtr (g 0) i k * l k)).
Proof.
  intros g l (N & V). split; [eapply near_mono; [|exact N]; intros h H; apply rot_tr; auto|]. intros i j Hi Hj. unfold mtr at 1. eapply der_eq; [|apply V; auto].
  pose proof (rot_cross_m (mtr (g 0)) l i j (rot_tr _ (near_0 _ N)) Hi Hj) as H. apply (eq_by _ _ _ _ H). idx i; idx j; exr.
Qed.
Lemma tR_ofT : forall g l, tanT g l -> tanR g (fun i => ksum 6 (fun k => (if (k <? 3)%nat then 0 else delta i (k - 3)%nat) * l k)).
Proof.
  intros g l (N & V & _). split; [eapply near_mono; [|exact N]; intros h (H & _); auto|]. eapply vel_ext; [|exact V]. intros k Hk. idx k; exr.
Qed.
Lemma tR_axis : forall axis g l, (axis < 3)%nat -> tanS g l -> tanR (fun h => axis_rot axis (g h)) (fun i => ksum 1 (fun k => - delta i axis * l k)).
Proof.
  intros axis g l Ha T. split; [apply near_all; intros; apply rot_axis; auto|]. unfold tanS in T.
  assert (Dc : derivable_pt_lim (fun h => cos (g h)) 0 (- sin (g 0) * l 0%nat)) by (apply (der_comp cos g); [exact T|apply derivable_pt_lim_cos]).
  assert (Ds : derivable_pt_lim (fun h => sin (g h)) 0 (cos (g 0) * l 0%nat)) by (apply (der_comp sin g); [exact T|apply derivable_pt_lim_sin]).
  assert (Dn : derivable_pt_lim (fun h => - sin (g h)) 0 (- (cos (g 0) * l 0%nat))) by (apply (der_opp (fun h => sin (g h))); exact Ds).
  intros i j Hi Hj. idx axis; idx i; idx j; cbn; (eapply der_eq; [|first [exact Dc|exact Dn|exact Ds|apply der_const]]); cbn; ring.
Qed.

(** transformations *)
Lemma tT_RT : forall g1 g2 l1 l2, tanR g1 l1 -> tanV 3 g2 l2 ->
  tanT (fun h => mk_T (g1 h) (g2 h)) (fun i => ksum 3 (fun k => (if (i <? 3)%nat then - crossm (g2 0) i k else delta (i - 3)%nat k) * l1 k) + ksum 3 (fun k => (if (i <? 3)%nat then delta i k else 0) * l2 k)).
Proof.
  intros g1 g2 l1 l2 (N & V) T2. split; [eapply near_mono; [|exact N]; intros h H; apply rigid_mk; auto|]. split.
  - apply (vel_near g1); [apply near_all; intros h i j Hi Hj; idx i; idx j; reflexivity|]. eapply vel_ext; [|exact V]. intros k Hk. idx k; exr.
  - intros i Hi. apply (der_eq _ _ (l2 i)); [|idx i; apply T2; lia]. idx i; unfold mk_T; exr.
Qed.
Lemma tT_R : forall g l, tanR g l -> tanT (fun h => mk_T (g h) (fun _ => 0)) (fun i => ksum 3 (fun k => (if (i <? 3)%nat then 0 else delta (i - 3)%nat k) * l k)).
Proof.
  intros g l (N & V). split; [eapply near_mono; [|exact N]; intros h H; apply rigid_mk; auto|]. split.
  - apply (vel_near g); [apply near_all; intros h i j Hi Hj; idx i; idx j; reflexivity|]. eapply vel_ext; [|exact V]. intros k Hk. idx k; exr.
  - intros i Hi. apply (der_eq _ _ 0); [|idx i; exact (der_const 0 0)]. idx i; unfold mk_T; exr.
Qed.
Lemma tT_T : forall g l, tanV 3 g l -> tanT (fun h => mk_T mid (g h)) (fun i => ksum 3 (fun k => (if (i <? 3)%nat then delta i k else 0) * l k)).
Proof.
  intros g l T2. split; [apply near_all; intros h; apply rigid_mk, rot_id|]. split.
  - intros i j Hi Hj. apply (der_eq _ _ 0); [|idx i; idx j; first [exact (der_const 0 0)|exact (der_const 1 0)]]. idx i; idx j; exr.
  - intros i Hi. apply (der_eq _ _ (l i)); [|idx i; apply T2; lia]. idx i; unfold mk_T; exr.
Qed.
Lemma tT_mul : forall g1 g2 l1 l2, tanT g1 l1 -> tanT g2 l2 -> tanT (fun h => mmul 4 (g1 h) (g2 h)) (fun i => ksum 6 (fun k => boxTimes (g1 0) i k * l2 k) + ksum 6 (fun k => mid i k * l1 k)).
Proof.
  intros g1 g2 l1 l2 (N1 & V1 & P1) (N2 & V2 & P2). assert (R1 := near_0 _ N1). assert (R2 := near_0 _ N2). cbn beta in R1, R2.
  split; [eapply near_mono; [|apply (near_and _ _ N1 N2)]; intros h (H1 & H2); apply rigid_mul; auto|]. split.
  - apply (vel_near (fun h => mmul 3 (g1 h) (g2 h))); [eapply near_mono; [|exact N2]; intros h H i j Hi Hj; symmetry; apply rigid_rot_mul; auto|].
    assert (T : tanR (fun h => mmul 3 (g1 h) (g2 h)) (fun i => ksum 3 (fun k => g1 0 i k * ang l2 k) + ksum 3 (fun k => mid i k * ang l1 k))).
    { apply tR_mul; (split; [|auto]); [eapply near_mono; [|exact N1]|eapply near_mono; [|exact N2]]; intros h (H & _); auto. }
    eapply vel_ext; [|apply T]. intros k Hk. idx k; unfold boxTimes; exr.
  - intros i Hi. destruct N2 as (de & Hde & N2). apply (der_near (fun h => mvmul 3 (g1 h) (trans_part (g2 h)) i + g1 h i 3%nat) _ 0 _ de); auto.
    { intros y Hy. rewrite Rminus_0_r in Hy. rewrite rigid_trans_mul; auto. }
    eapply der_eq; [|apply der_plus; [apply (der_mv 3 g1 (fun h => trans_part (g2 h)) (fun k => - mmul 3 (crossm (ang l1)) (g1 0) i k) (fun k => l2 k + mvmul 3 (crossm (trans_part (g2 0))) (ang l2) k)); intros; [apply V1|apply P2]; auto|apply P1; auto]].
    pose proof (rot_cross (g1 0) (trans_part (g2 0)) (ang l2) i (proj1 R1) Hi) as H. apply (eq_by _ _ _ _ H). 
    assert (EM : forall q, trans_part (mmul 4 (g1 0) (g2 0)) q = mvmul 3 (g1 0) (trans_part (g2 0)) q + g1 0 q 3%nat) by (intros q; apply rigid_trans_mul; auto).
    rewrite (crossm_v (trans_part (mmul 4 (g1 0) (g2 0))) (fun q => mvmul 3 (g1 0) (trans_part (g2 0)) q + g1 0 q 3%nat)) by (intros; apply EM).
    idx i; unfold boxTimes; exr.
Qed.
Lemma tT_inv : forall X par_dom g l, kinematics_ok X par_dom -> tanT g l -> tanT (fun h => inv4 X (g h)) (fun i => ksum 6 (fun k => - boxTimes (inv4 X (g 0)) i k * l k)).
Proof.
  intros X par_dom g l (_ & _ & _ & _ & _ & _ & _ & _ & _ & IV) (N & V & P). assert (R0 := near_0 _ N). cbn beta in R0.
  assert (EI : near (fun h => meq 4 4 (inv4 X (g h)) (rigid_inv (g h)))) by (eapply near_mono; [|exact N]; intros h H; apply IV; auto; apply rigid_inv_l; auto).
  assert (RI : near (fun h => rigid (inv4 X (g h)))).
  { eapply near_mono; [|apply (near_and _ _ N EI)]. intros h (H1 & H2). eapply rigid_ext; [|apply rigid_inv_rigid; exact H1]. intros i j Hi Hj. symmetry. auto. }
  assert (E0 := near_0 _ EI). cbn beta in E0. split; auto. assert (ET : forall q, (q < 3)%nat -> trans_part (inv4 X (g 0)) q = - mvmul 3 (mtr (g 0)) (trans_part (g 0)) q).
  { intros q Hq. unfold trans_part at 1. rewrite E0 by lia. idx q; reflexivity. }
  assert (EC : forall p q, (p < 3)%nat -> (q < 3)%nat -> inv4 X (g 0) p q = g 0 q p) by (intros p q Hp Hq; rewrite E0 by lia; idx p; idx q; reflexivity).
  split.
  - apply (vel_near (fun h => mtr (g h))).
    { eapply near_mono; [|exact EI]. intros h H i j Hi Hj. rewrite H by lia. idx i; idx j; reflexivity. }
    assert (T : tanR (fun h => mtr (g h)) (fun i => ksum 3 (fun k => - mtr (g 0) i k * ang l k))).
    { apply tR_inv. split; auto. eapply near_mono; [|exact N]. intros h (H & _); auto. }
    eapply vel_ext; [|apply T]. intros k Hk. idx k; unfold boxTimes; ex; rewrite !EC by lia; ring.
  - intros i Hi. destruct EI as (de & Hde & EI). apply (der_near (fun h => - mvmul 3 (mtr (g h)) (trans_part (g h)) i) _ 0 _ de); auto.
    { intros y Hy. rewrite Rminus_0_r in Hy. rewrite EI by (auto; lia). idx i; reflexivity. }
    eapply der_eq; [|apply (der_opp (fun h => mvmul 3 (mtr (g h)) (trans_part (g h)) i)); apply (der_mv 3 (fun h => mtr (g h)) (fun h => trans_part (g h)) (fun k => - mmul 3 (crossm (ang l)) (g 0) k i) (fun k => l k + mvmul 3 (crossm (trans_part (g 0))) (ang l) k)); intros; [apply V|apply P]; auto].
    rewrite (crossm_v (trans_part (inv4 X (g 0))) (fun q => - mvmul 3 (mtr (g 0)) (trans_part (g 0)) q)) by (intros; apply ET; auto).
    assert (EB : forall p k, (p < 3)%nat -> (k < 3)%nat -> boxTimes (inv4 X (g 0)) p k = mtr (g 0) p k) by (intros p k Hp Hk; idx p; idx k; unfold boxTimes; cbn [Nat.ltb Nat.leb]; rewrite EC by lia; reflexivity).
    assert (EB2 : forall p k, (p < 3)%nat -> (k < 3)%nat -> boxTimes (inv4 X (g 0)) p (3 + k)%nat = - mmul 3 (crossm (fun q => - mvmul 3 (mtr (g 0)) (trans_part (g 0)) q)) (mtr (g 0)) p k).
    { intros p k Hp Hk. unfold boxTimes. destruct (Nat.ltb_spec p 3); [|lia]. destruct (Nat.ltb_spec (3 + k) 3); [lia|]. replace (3 + k - 3)%nat with k by lia. f_equal. unfold mmul. apply ksum_ext. intros q Hq. rewrite EC by lia. f_equal. apply crossm_ext. intros; apply ET; auto. }
    assert (EB3 : forall p k, (p < 3)%nat -> (k < 3)%nat -> boxTimes (inv4 X (g 0)) (3 + p)%nat (3 + k)%nat = mtr (g 0) p k).
    { intros p k Hp Hk. unfold boxTimes. destruct (Nat.ltb_spec (3 + p) 3); [lia|]. destruct (Nat.ltb_spec (3 + k) 3); [lia|]. replace (3 + k - 3)%nat with k by lia. replace (3 + p - 3)%nat with p by lia. rewrite EC by lia. reflexivity. }
    assert (EB4 : forall p k, (k < 3)%nat -> boxTimes (inv4 X (g 0)) (3 + p)%nat k = 0).
    { intros p k Hk. unfold boxTimes. destruct (Nat.ltb_spec (3 + p) 3); [lia|]. destruct (Nat.ltb_spec k 3); [|lia]. reflexivity. }
    assert (L1 : forall p, (p < 3)%nat -> ksum 6 (fun k => - boxTimes (inv4 X (g 0)) p k * l k) = - mvmul 3 (mtr (g 0)) l p + mvmul 3 (crossm (fun q => - mvmul 3 (mtr (g 0)) (trans_part (g 0)) q)) (mvmul 3 (mtr (g 0)) (ang l)) p).
    { intros p Hp. rewrite ks6. pose proof (EB2 p 0%nat Hp ltac:(lia)) as Q0. pose proof (EB2 p 1%nat Hp ltac:(lia)) as Q1. pose proof (EB2 p 2%nat Hp ltac:(lia)) as Q2. cbn [Nat.add] in Q0, Q1, Q2. rewrite Q0, Q1, Q2. rewrite !(EB p) by lia. clear - Hp. set (A := g 0). idx p; exr. }
    assert (L2 : forall p, (p < 3)%nat -> ang (fun i => ksum 6 (fun k => - boxTimes (inv4 X (g 0)) i k * l k)) p = - mvmul 3 (mtr (g 0)) (ang l) p).
    { intros p Hp. unfold ang at 1. rewrite ks6. pose proof (EB3 p 0%nat Hp ltac:(lia)) as Q0. pose proof (EB3 p 1%nat Hp ltac:(lia)) as Q1. pose proof (EB3 p 2%nat Hp ltac:(lia)) as Q2. pose proof (EB4 p 0%nat ltac:(lia)) as Q3. pose proof (EB4 p 1%nat ltac:(lia)) as Q4. pose proof (EB4 p 2%nat ltac:(lia)) as Q5. cbn [Nat.add] in *. rewrite Q0, Q1, Q2, Q3, Q4, Q5. unfold mvmul, ang. rewrite !ks3. cbn [kmul kadd RRing Nat.add]. ring. }
    rewrite L1 by auto. rewrite (mv_ext (crossm (fun q => - mvmul 3 (mtr (g 0)) (trans_part (g 0)) q)) _ (fun p => - mvmul 3 (mtr (g 0)) (ang l) p) i L2).
    clear - Hi. set (A := g 0). idx i; exr.
Qed.

(** vectors *)
Lemma tV_rot : forall g1 g2 l1 l2, tanR g1 l1 -> tanV 3 g2 l2 -> tanV 3 (fun h => mvmul 3 (g1 h) (g2 h)) (fun i => ksum 3 (fun k => crossm (mvmul 3 (g1 0) (g2 0)) i k * l1 k) + ksum 3 (fun k => g1 0 i k * l2 k)).
Proof.
  intros g1 g2 l1 l2 (_ & V) T i Hi. eapply der_eq; [|apply (der_mv 3 g1 g2 (fun k => - mmul 3 (crossm l1) (g1 0) i k) l2); intros; [apply V|apply T]; auto]. idx i; exr.
Qed.
Lemma tV_cross : forall g1 g2 l1 l2, tanV 3 g1 l1 -> tanV 3 g2 l2 -> tanV 3 (fun h => mvmul 3 (crossm (g1 h)) (g2 h)) (fun i => ksum 3 (fun k => - crossm (g2 0) i k * l1 k) + ksum 3 (fun k => crossm (g1 0) i k * l2 k)).
Proof.
  intros g1 g2 l1 l2 T1 T2 i Hi. eapply der_eq; [|apply (der_mv 3 (fun h => crossm (g1 h)) g2 (fun k => crossm l1 i k) l2); [|intros; apply T2; auto]].
  - idx i; exr.
  - intros k Hk. idx i; idx k; cbn [crossm]; first [apply der_const|apply T1; lia|apply (der_opp (fun h => g1 h _)); apply T1; lia].
Qed.
Lemma sum_id : forall n i l, (i < n)%nat -> ksum n (fun k => mid i k * l k) = l i.
Proof. intros n i l Hi. apply (@ksum_delta_l R RRing n i l). auto. Qed.
Lemma sum_sid : forall n i a l, (i < n)%nat -> ksum n (fun k => a * delta i k * l k) = a * l i.
Proof. intros n i a l Hi. rewrite (ksum_ext n _ (fun k => kmul (delta i k) (a * l k))) by (intros; cbn; ring). apply (@ksum_delta_l R RRing n i (fun k => a * l k)). auto. Qed.
Lemma tV_add : forall n g1 g2 l1 l2, tanV n g1 l1 -> tanV n g2 l2 -> tanV n (fun h i => g1 h i + g2 h i) (fun i => ksum n (fun k => mid i k * l1 k) + ksum n (fun k => mid i k * l2 k)).
Proof. intros n g1 g2 l1 l2 T1 T2 i Hi. rewrite !sum_id by auto. apply der_plus; [apply T1|apply T2]; auto. Qed.
Lemma tV_sub : forall n g1 g2 l1 l2, tanV n g1 l1 -> tanV n g2 l2 -> tanV n (fun h i => g1 h i - g2 h i) (fun i => ksum n (fun k => mid i k * l1 k) + ksum n (fun k => -1 * delta i k * l2 k)).
Proof. intros n g1 g2 l1 l2 T1 T2 i Hi. rewrite sum_id, sum_sid by auto. apply (der_eq _ _ (l1 i - l2 i)); [ring|]. apply der_minus; [apply T1|apply T2]; auto. Qed.
Lemma tV_subc : forall n g c l, tanV n g l -> tanV n (fun h i => g h i - c i) (fun i => ksum n (fun k => mid i k * l k)).
Proof. intros n g c l T i Hi. rewrite sum_id by auto. apply (der_eq _ _ (l i - 0)); [ring|]. apply der_minus; [apply T; auto|apply der_const]. Qed.
Lemma tV_neg : forall n g l, tanV n g l -> tanV n (fun h i => - g h i) (fun i => ksum n (fun k => -1 * delta i k * l k)).
Proof. intros n g l T i Hi. rewrite sum_sid by auto. apply (der_eq _ _ (- l i)); [ring|]. apply (der_opp (fun h => g h i)). apply T; auto. Qed.
Lemma tV_scale : forall n g1 g2 l1 l2, tanV n g1 l1 -> tanS g2 l2 -> tanV n (fun h i => g1 h i * g2 h) (fun i => ksum n (fun k => g2 0 * delta i k * l1 k) + ksum 1 (fun k => g1 0 i * l2 k)).
Proof.
  intros n g1 g2 l1 l2 T1 T2 i Hi. rewrite sum_sid, ks1 by auto. apply (der_eq _ _ (l1 i * g2 0 + g1 0 i * l2 0%nat)); [ring|]. apply (der_mul (fun h => g1 h i) g2); [apply T1; auto|exact T2].
Qed.
Lemma tV_elem : forall g1 g2 l1 l2, tanV 3 g1 l1 -> tanV 3 g2 l2 -> tanV 3 (fun h i => g1 h i * g2 h i) (fun i => ksum 3 (fun k => g2 0 i * delta i k * l1 k) + ksum 3 (fun k => g1 0 i * delta i k * l2 k)).
Proof.
  intros g1 g2 l1 l2 T1 T2 i Hi. rewrite !sum_sid by auto. apply (der_eq _ _ (l1 i * g2 0 i + g1 0 i * l2 i)); [ring|]. apply (der_mul (fun h => g1 h i) (fun h => g2 h i)); [apply T1; auto|apply T2; auto].
Qed.
Lemma tV_trans : forall g l, tanT g l -> tanV 3 (fun h => trans_part (g h)) (fun i => ksum 6 (fun k => (if (k <? 3)%nat then delta i k else crossm (trans_part (g 0)) i (k - 3)%nat) * l k)).
Proof. intros g l (_ & _ & P) i Hi. eapply der_eq; [|apply P; auto]. idx i; exr. Qed.
Lemma tV_comp : forall n g l i, (i < n)%nat -> tanV n g l -> tanS (fun h => g h i) (fun _ => ksum n (fun k => delta i k * l k)).
Proof. intros n g l i Hi T. unfold tanS. eapply der_eq; [|apply T; exact Hi]. symmetry. apply (sum_id n i l Hi). Qed.

(** homogeneous points *)
Lemma tH_ofE : forall g l, tanV 3 g l -> tanV 4 (fun h i => if (i <? 3)%nat then g h i else 1) (fun i => ksum 3 (fun k => delta i k * l k)).
Proof. intros g l T i Hi. idx i; cbn [Nat.ltb Nat.leb]; (eapply der_eq; [|first [apply der_const|apply T; lia]]; exr). Qed.
Lemma tH_mul : forall g1 g2 l1 l2, tanT g1 l1 -> tanV 4 g2 l2 -> tanV 4 (fun h => mvmul 4 (g1 h) (g2 h)) (fun i => ksum 6 (fun k => boxMinus (mvmul 4 (g1 0) (g2 0)) i k * l1 k) + ksum 4 (fun k => g1 0 i k * l2 k)).
Proof.
  intros g1 g2 l1 l2 (N & V & P) T i Hi. assert (R0 := near_0 _ N). destruct R0 as (_ & Z & U). destruct (Nat.ltb_spec i 3) as [L|L].
  - eapply der_eq; [|apply (der_mv 4 g1 g2 (fun k => if (k <? 3)%nat then - mmul 3 (crossm (ang l1)) (g1 0) i k else l1 i + mvmul 3 (crossm (trans_part (g1 0))) (ang l1) i) l2); intros k Hk; [|apply T; auto]].
    + assert (Z0 := Z 0%nat ltac:(lia)). assert (Z1 := Z 1%nat ltac:(lia)). assert (Z2 := Z 2%nat ltac:(lia)). idx i; unfold boxMinus; ex; rewrite ?Z0, ?Z1, ?Z2, ?U; ring.
    + idx k; cbn [Nat.ltb Nat.leb]; [apply V; lia|apply V; lia|apply V; lia|apply P; auto].
  - assert (i = 3%nat) by lia. subst i. eapply der_eq; [|apply (der_mv 4 g1 g2 (fun k => 0) l2); intros k Hk; [|apply T; auto]].
    + unfold boxMinus. exr.
    + idx k; [apply (der_near0 _ 0)|apply (der_near0 _ 0)|apply (der_near0 _ 0)|apply (der_near0 _ 1)]; (eapply near_mono; [|exact N]; intros h (_ & Zh & Uh)); auto; apply Zh; lia.
Qed.
Lemma tV_hom : forall g l J, tanV 4 g l -> fromHomJ (g 0) = Ok J -> exists g', near (fun h => fromHom (g h) = Ok (g' h)) /\ tanV 3 g' (fun i => ksum 4 (fun k => J i k * l k)).
Proof.
  intros g l J T EJ. unfold fromHomJ in EJ. destruct Req_EM_T as [E|E]; [discriminate|]. injection EJ as <-. exists (fun h i => g h i / g h 3%nat). split.
  - destruct (der_close (fun h => g h 3%nat) 0 (l 3%nat) (Rabs (g 0 3%nat)) (T 3%nat ltac:(lia)) (Rabs_pos_lt _ E)) as (de & Hde & H). exists de. split; auto. intros h Hh. unfold fromHom. destruct Req_EM_T as [E'|E']; auto.
    exfalso. specialize (H h). rewrite Rminus_0_r in H. specialize (H Hh). rewrite E' in H. rewrite Rminus_0_l, Rabs_Ropp in H. lra.
  - intros i Hi. eapply der_eq; [|apply (der_quot (fun h => g h i) (fun h => g h 3%nat) 0 (l i) (l 3%nat)); [apply T; lia|apply T; lia|exact E]]. cbn beta.
    idx i; ex; field; auto.
Qed.
