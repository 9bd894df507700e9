(** * Derivatives of the elementary functions (proofs only) *)
From Coq Require Import Arith Lia List ZArith NArith Bool Reals Lra.
From Verif Require Import Lib_Ring Lib_Real Lib_Res Scalar_Model Scalar_Spec.
Local Open Scope R_scope.

Lemma rder_ok : forall F x l g delta, 0 < delta -> (forall y, Rabs (y - x) < delta -> F y = Ok (g y)) -> derivable_pt_lim g x l -> rder F x l.
Proof. intros. exists g, delta. auto. Qed.
Lemma rder_total : forall (g : R -> R) x l, derivable_pt_lim g x l -> rder (fun y => Ok (g y)) x l.
Proof. intros. apply (rder_ok _ _ _ g 1); auto. lra. Qed.
Lemma rder_eq : forall F x l l', l = l' -> rder F x l -> rder F x l'.
Proof. intros; subst; auto. Qed.
Lemma der_near : forall g g' x l delta, 0 < delta -> (forall y, Rabs (y - x) < delta -> g y = g' y) -> derivable_pt_lim g x l -> derivable_pt_lim g' x l.
Proof.
  intros g g' x l delta Hd E H e He. destruct (H e He) as (d1 & H1). assert (0 < Rmin delta d1) by (apply Rmin_glb_lt; auto; apply cond_pos).
  exists (mkposreal _ H0). cbn [pos]. intros h Hh Hl. rewrite <- !E.
  - apply H1; auto. eapply Rlt_le_trans; [apply Hl|apply Rmin_r].
  - replace (x - x) with 0 by ring. rewrite Rabs_R0. auto.
  - replace (x + h - x) with h by ring. eapply Rlt_le_trans; [apply Hl|apply Rmin_l].
Qed.
Lemma rder_ext : forall F G x l, (forall y, F y = G y) -> rder F x l -> rder G x l.
Proof. intros F G x l E (g & de & Hd & H & D). exists g, de. split; auto. split; auto. intros. rewrite <- E. auto. Qed.
Lemma rder_near : forall F G x l delta, 0 < delta -> (forall y, Rabs (y - x) < delta -> F y = G y) -> rder F x l -> rder G x l.
Proof.
  intros F G x l d0 H0 E (g & de & Hd & H & D). exists g, (Rmin d0 de). split; [apply Rmin_glb_lt; auto|]. split; auto. intros y Hy.
  rewrite <- E by (eapply Rlt_le_trans; [apply Hy|apply Rmin_l]). apply H. eapply Rlt_le_trans; [apply Hy|apply Rmin_r].
Qed.
Lemma rder_val : forall F x l, rder F x l -> exists v, F x = Ok v.
Proof. intros F x l (g & de & Hd & H & _). exists (g x). apply H. replace (x - x) with 0 by ring. rewrite Rabs_R0. auto. Qed.
(* functions with a derivative stay near their value *)
Lemma der_close : forall g x l rho, derivable_pt_lim g x l -> 0 < rho -> exists delta, 0 < delta /\ forall y, Rabs (y - x) < delta -> Rabs (g y - g x) < rho.
Proof.
  intros g x l rho D Hr. assert (C : continuity_pt g x) by (apply derivable_continuous_pt; exists l; auto).
  destruct (C rho Hr) as (al & Ha & H). exists al. split; auto. intros y Hy. destruct (Req_EM_T x y) as [->|Ne].
  - replace (g y - g y) with 0 by ring. rewrite Rabs_R0. auto.
  - apply H. split; [split; [constructor|auto]|]. apply Hy.
Qed.
Lemma rder_comp : forall f F x l v l', rder f x l -> f x = Ok v -> rder F v l' -> rder (fun h => do y <- f h; F y) x (l' * l).
Proof.
  intros f F x l v l' (g & de & Hd & H & D) E (G & rho & Hr & HG & DG).
  assert (V : g x = v). { assert (f x = Ok (g x)) by (apply H; replace (x - x) with 0 by ring; rewrite Rabs_R0; auto). congruence. }
  destruct (der_close g x l rho D Hr) as (d2 & H2 & C).
  exists (fun h => G (g h)), (Rmin de d2). split; [apply Rmin_glb_lt; auto|]. split.
  - intros y Hy. rewrite H by (eapply Rlt_le_trans; [apply Hy|apply Rmin_l]). cbn [bind]. apply HG. rewrite <- V. apply C. eapply Rlt_le_trans; [apply Hy|apply Rmin_r].
  - apply (der_comp G g); auto. rewrite V. auto.
Qed.
Lemma rder_bin : forall f1 f2 (F : R -> R -> res R) x l1 l2 v1 v2 l G rho, rder f1 x l1 -> rder f2 x l2 -> f1 x = Ok v1 -> f2 x = Ok v2 ->
  0 < rho -> (forall a b, Rabs (a - v1) < rho -> Rabs (b - v2) < rho -> F a b = Ok (G a b)) ->
  (forall g1 g2, g1 x = v1 -> g2 x = v2 -> derivable_pt_lim g1 x l1 -> derivable_pt_lim g2 x l2 -> derivable_pt_lim (fun h => G (g1 h) (g2 h)) x l) ->
  rder (fun h => do a <- f1 h; do b <- f2 h; F a b) x l.
Proof.
  intros f1 f2 F x l1 l2 v1 v2 l G rho (g1 & e1 & He1 & H1 & D1) (g2 & e2 & He2 & H2 & D2) E1 E2 Hr HF HD.
  assert (Z : forall e, 0 < e -> Rabs (x - x) < e) by (intros; replace (x - x) with 0 by ring; rewrite Rabs_R0; auto).
  assert (V1 : g1 x = v1) by (rewrite H1 in E1 by auto; congruence). assert (V2 : g2 x = v2) by (rewrite H2 in E2 by auto; congruence).
  destruct (der_close g1 x l1 rho D1 Hr) as (d1 & P1 & C1). destruct (der_close g2 x l2 rho D2 Hr) as (d2 & P2 & C2).
  exists (fun h => G (g1 h) (g2 h)), (Rmin (Rmin e1 e2) (Rmin d1 d2)). split; [repeat apply Rmin_glb_lt; auto|]. split; [|apply HD; auto].
  intros y Hy. assert (L : Rabs (y - x) < e1 /\ Rabs (y - x) < e2 /\ Rabs (y - x) < d1 /\ Rabs (y - x) < d2).
  { revert Hy. unfold Rmin. repeat destruct Rle_dec; intros; repeat split; lra. }
  destruct L as (L1 & L2 & L3 & L4). rewrite H1, H2 by auto. cbn [bind]. apply HF; [rewrite <- V1; apply C1|rewrite <- V2; apply C2]; auto.
Qed.

(** elementary functions *)
Lemma Rabs_lt_iff : forall a b, Rabs a < b -> - b < a < b.
Proof. intros a b H. apply Rabs_def2 in H. lra. Qed.
Lemma rd_sqrt : forall x, 0 < x -> rder (fun x => do x <- need_pos x; Ok (sqrt x)) x (1 / (2 * sqrt x)).
Proof.
  intros x Hx. apply (rder_ok _ _ _ sqrt x); auto.
  - intros y Hy. apply Rabs_lt_iff in Hy. unfold need_pos. destruct Rlt_dec; [auto|lra].
  - apply (der_eq _ _ (/ (2 * sqrt x))); [unfold Rdiv; ring|]. apply derivable_pt_lim_sqrt. auto.
Qed.
Lemma rd_ln : forall x, 0 < x -> rder (fun x => do x <- need_pos x; Ok (ln x)) x (1 / x).
Proof.
  intros x Hx. apply (rder_ok _ _ _ ln x); auto.
  - intros y Hy. apply Rabs_lt_iff in Hy. unfold need_pos. destruct Rlt_dec; [auto|lra].
  - apply (der_eq _ _ (/ x)); [unfold Rdiv; ring|]. apply derivable_pt_lim_ln. auto.
Qed.
Lemma rd_exp : forall x, rder (fun x => Ok (exp x)) x (exp x).
Proof. intros. apply rder_total, derivable_pt_lim_exp. Qed.
Lemma rd_sin : forall x, rder (fun x => Ok (sin x)) x (cos x).
Proof. intros. apply rder_total, derivable_pt_lim_sin. Qed.
Lemma rd_cos : forall x, rder (fun x => Ok (cos x)) x (- sin x).
Proof. intros. apply rder_total, derivable_pt_lim_cos. Qed.
Lemma der_atan : forall x, derivable_pt_lim atan x (1 / (1 + x * x)).
Proof. intros x. apply (der_eq _ _ (/ (1 + x ^ 2))); [unfold Rdiv; rewrite Rmult_1_l; f_equal; ring|]. apply derivable_pt_lim_atan. Qed.
Lemma rd_atan : forall x, rder (fun x => Ok (atan x)) x (1 / (1 + x * x)).
Proof. intros. apply rder_total, der_atan. Qed.
Lemma rd_neg : forall x, rder (fun x => Ok (- x)) x (-1).
Proof. intros. apply rder_total. apply (der_opp (fun y => y)). apply der_id. Qed.
Lemma cosh_pos : forall x, 0 < cosh x.
Proof. intros. unfold cosh. pose proof (exp_pos x). pose proof (exp_pos (-x)). lra. Qed.
Lemma cosh2_sinh2 : forall x, cosh x * cosh x - sinh x * sinh x = 1.
Proof.
  intros. unfold cosh, sinh. replace ((exp x + exp (- x)) / 2 * ((exp x + exp (- x)) / 2) - (exp x - exp (- x)) / 2 * ((exp x - exp (- x)) / 2)) with (exp x * exp (-x)) by field.
  rewrite <- exp_plus. replace (x + - x) with 0 by ring. apply exp_0.
Qed.
Lemma tanh_sech : forall x, 1 - tanh x * tanh x = 1 / cosh x * (1 / cosh x).
Proof.
  intros. unfold tanh. pose proof (cosh_pos x). pose proof (cosh2_sinh2 x). replace (1 - sinh x / cosh x * (sinh x / cosh x)) with ((cosh x * cosh x - sinh x * sinh x) * (/ cosh x * / cosh x)) by (field; lra).
  rewrite H0. unfold Rdiv. ring.
Qed.
Lemma der_tanh : forall x, derivable_pt_lim tanh x (1 - tanh x * tanh x).
Proof.
  intros. pose proof (cosh_pos x). apply (der_ext (fun x => sinh x * / cosh x)); [intros; reflexivity|].
  apply (der_eq _ _ (cosh x * / cosh x + sinh x * (- sinh x / (cosh x * cosh x)))).
  - unfold tanh. field. lra.
  - apply (der_mul sinh (fun y => / cosh y)); [apply derivable_pt_lim_sinh|]. apply (der_inv cosh); [apply derivable_pt_lim_cosh|lra].
Qed.
Lemma rd_tanh : forall x, rder (fun x => Ok (tanh x)) x (1 - tanh x * tanh x).
Proof. intros. apply rder_total, der_tanh. Qed.
Lemma cosh_opp : forall x, cosh (- x) = cosh x.
Proof. intros. unfold cosh. rewrite Ropp_involutive. lra. Qed.
Lemma rd_sigmoid : forall hh sc sh x t, t = 1 / cosh (1 / 2 * sc * (sh - x)) -> rder (fun x => Ok (hh * (1/2) * (1 + tanh (- sc * (x - sh) * (1/2))))) x (- (1/4) * hh * sc * t * t).
Proof.
  intros hh sc sh x t ->. apply rder_total.
  apply (der_eq _ _ (hh * (1/2) * (0 + (1 - tanh (- sc * (x - sh) * (1/2)) * tanh (- sc * (x - sh) * (1/2))) * (- sc * (1 - 0) * (1 / 2))))).
  - rewrite tanh_sech. replace (- sc * (x - sh) * (1 / 2)) with (1 / 2 * sc * (sh - x)) by field. pose proof (cosh_pos (1 / 2 * sc * (sh - x))). field. lra.
  - apply der_scal. apply der_plus; [apply der_const|]. apply (der_comp tanh (fun x => - sc * (x - sh) * (1/2))); [|apply der_tanh].
    apply der_scal_r. apply der_scal. apply der_minus; [apply der_id|apply der_const].
Qed.
Lemma der_acos : forall x, -1 < x < 1 -> derivable_pt_lim acos x (-1 / sqrt (1 - x * x)).
Proof.
  intros x Hx. pose proof (derive_pt_acos x Hx) as E. destruct (derivable_pt_acos x Hx) as [l Hl] eqn:Ed. cbn [derive_pt proj1_sig] in E.
  apply (der_eq _ _ l); [|exact Hl]. rewrite E. unfold Rsqr. reflexivity.
Qed.
Lemma near_acos : forall x y, -1 < x < 1 -> Rabs (y - x) < Rmin (1 - x) (x + 1) -> -1 <= y <= 1.
Proof. intros x y Hx Hy. apply Rabs_lt_iff in Hy. revert Hy. unfold Rmin. destruct Rle_dec; lra. Qed.
Lemma rd_acos : forall x, -1 < x < 1 -> rder (fun x => if Rle_dec (-1) x then if Rle_dec x 1 then Ok (acos x) else Throw else Throw) x (-1 / sqrt (1 - x * x)).
Proof.
  intros x Hx. apply (rder_ok _ _ _ acos (Rmin (1 - x) (x + 1))); [apply Rmin_glb_lt; lra| |apply der_acos; auto].
  intros y Hy. apply near_acos in Hy; auto. destruct Rle_dec; [|lra]. destruct Rle_dec; [auto|lra].
Qed.
Lemma rd_acosSq : forall x, -1 < x < 1 -> rder (fun x => if Rle_dec x 1 then if Rle_dec (-1) x then Ok (acos x * acos x) else Throw else Throw) x (-2 * acos x / sqrt (1 - x * x)).
Proof.
  intros x Hx. apply (rder_ok _ _ _ (fun y => acos y * acos y) (Rmin (1 - x) (x + 1))); [apply Rmin_glb_lt; lra| |].
  - intros y Hy. apply near_acos in Hy; auto. destruct Rle_dec; [|lra]. destruct Rle_dec; [auto|lra].
  - apply (der_eq _ _ (-1 / sqrt (1 - x * x) * acos x + acos x * (-1 / sqrt (1 - x * x)))); [unfold Rdiv; ring|]. apply der_mul; apply der_acos; auto.
Qed.
Lemma der_pow : forall k x, derivable_pt_lim (fun y => y ^ k) x (INR k * x ^ pred k).
Proof. intros. apply derivable_pt_lim_pow. Qed.
Lemma rd_pow : forall k x, x <> 0 \/ (1 <= k)%Z -> exists t, fpow x (k - 1) = Ok t /\ rder (fun x => fpow x k) x (IZR k * t).
Proof.
  intros k x H. exists (powerRZ x (k - 1)). split.
  { unfold fpow. destruct Req_EM_T; auto. destruct (Z.ltb_spec (k - 1) 0); auto. destruct H; [contradiction|lia]. }
  destruct (Z_le_gt_dec 0 k) as [Hk|Hk].
  - destruct (Z.eq_dec k 0) as [->|K0].
    + destruct H as [H|H]; [|lia]. apply (rder_ok _ _ _ (fun _ => 1) 1); [lra| |rewrite Rmult_0_l; apply der_const].
      intros y _. unfold fpow. cbn [Z.ltb Z.compare powerRZ]. destruct Req_EM_T; auto.
    + apply (rder_ok _ _ _ (fun y => y ^ Z.to_nat k) 1); [lra| |].
      * intros y _. unfold fpow. destruct (Z.ltb_spec k 0); [lia|]. replace (powerRZ y k) with (y ^ Z.to_nat k); [destruct Req_EM_T; auto|].
        rewrite pow_powerRZ, Z2Nat.id by auto. auto.
      * apply (der_eq _ _ (INR (Z.to_nat k) * x ^ pred (Z.to_nat k))); [|apply der_pow].
        rewrite INR_IZR_INZ, Z2Nat.id by auto. f_equal. rewrite pow_powerRZ. f_equal. lia.
  - assert (Hx : x <> 0) by (destruct H; auto; lia). assert (0 < Rabs x) by (apply Rabs_pos_lt; auto).
    apply (rder_ok _ _ _ (fun y => / (y ^ Z.to_nat (- k))) (Rabs x)); auto.
    * intros y Hy. assert (y <> 0). { intros ->. rewrite Rminus_0_l, Rabs_Ropp in Hy. lra. }
      unfold fpow. destruct Req_EM_T; [contradiction|]. f_equal. destruct k; try lia. cbn [powerRZ Z.opp Z.to_nat]. reflexivity.
    * assert (P : x ^ Z.to_nat (- k) <> 0) by (apply pow_nonzero; auto).
      apply (der_eq _ _ (- (INR (Z.to_nat (- k)) * x ^ pred (Z.to_nat (- k))) / (x ^ Z.to_nat (- k) * x ^ Z.to_nat (- k)))).
      -- rewrite INR_IZR_INZ, Z2Nat.id by lia. rewrite opp_IZR.
         assert (E : powerRZ x (k - 1) = / (x * x ^ Z.to_nat (- k))).
         { replace (k - 1)%Z with (- Z.of_nat (S (Z.to_nat (- k))))%Z by lia. rewrite powerRZ_neg'. rewrite <- pow_powerRZ. reflexivity. }
         rewrite E. assert (E2 : x ^ Z.to_nat (- k) = x * x ^ pred (Z.to_nat (- k))). { destruct (Z.to_nat (- k)) eqn:En; [lia|]. reflexivity. }
         assert (x ^ pred (Z.to_nat (- k)) <> 0) by (apply pow_nonzero; auto). rewrite E2. field. auto.
      -- apply der_inv; auto. apply der_pow.
Qed.
Lemma atan2_right : forall a b, 0 < b -> atan2 a b = atan (a / b).
Proof. intros. unfold atan2. destruct Rlt_dec; [auto|lra]. Qed.
Lemma atan2_up : forall a b, 0 < a -> atan2 a b = PI / 2 - atan (b / a).
Proof.
  intros a b Ha. unfold atan2. assert (0 < / a) by (apply Rinv_0_lt_compat; auto). destruct (Rlt_dec 0 b) as [Hb|Hb].
  - rewrite <- atan_inv by (unfold Rdiv; apply Rmult_lt_0_compat; auto). f_equal. field. lra.
  - destruct (Rlt_dec b 0) as [Hb'|Hb'].
    + destruct Rlt_dec; [lra|]. assert (P : 0 < - b / a) by (unfold Rdiv; apply Rmult_lt_0_compat; lra). pose proof (atan_inv _ P) as E.
      replace (/ (- b / a)) with (- (a / b)) in E by (field; lra). replace (b / a) with (- (- b / a)) by (field; lra). rewrite atan_opp. rewrite atan_opp in E. lra.
    + destruct Rlt_dec; [|lra]. replace (b / a) with 0 by (replace b with 0 by lra; field; lra). rewrite atan_0. lra.
Qed.
Lemma atan2_opp : forall a b, a <> 0 -> atan2 (- a) b = - atan2 a b.
Proof.
  intros a b Ha. unfold atan2. destruct (Rlt_dec 0 b).
  - rewrite <- atan_opp. f_equal. field. lra.
  - destruct (Rlt_dec b 0).
    + replace (- a / b) with (- (a / b)) by (field; lra). rewrite atan_opp. destruct (Rlt_dec a 0); destruct (Rlt_dec (- a) 0); lra.
    + repeat destruct Rlt_dec; lra.
Qed.
Lemma atan2_down : forall a b, a < 0 -> atan2 a b = - (PI / 2) - atan (b / a).
Proof.
  intros a b Ha. replace a with (- - a) at 1 by ring. rewrite atan2_opp by lra. rewrite atan2_up by lra. replace (b / - a) with (- (b / a)) by (field; lra). rewrite atan_opp. lra.
Qed.
Lemma der_quot : forall g1 g2 x l1 l2, derivable_pt_lim g1 x l1 -> derivable_pt_lim g2 x l2 -> g2 x <> 0 -> derivable_pt_lim (fun h => g1 h / g2 h) x ((l1 * g2 x - g1 x * l2) / (g2 x * g2 x)).
Proof.
  intros. apply (der_ext (fun h => g1 h * / g2 h)); [intros; reflexivity|]. apply (der_eq _ _ (l1 * / g2 x + g1 x * (- l2 / (g2 x * g2 x)))); [field; auto|].
  apply (der_mul g1 (fun h => / g2 h)); auto. apply (der_inv g2); auto.
Qed.
Lemma der_atan_quot : forall g1 g2 x l1 l2, derivable_pt_lim g1 x l1 -> derivable_pt_lim g2 x l2 -> g2 x <> 0 ->
  derivable_pt_lim (fun h => atan (g1 h / g2 h)) x ((l1 * g2 x - g1 x * l2) / (g1 x * g1 x + g2 x * g2 x)).
Proof.
  intros g1 g2 x l1 l2 D1 D2 N. assert (P : g1 x * g1 x + g2 x * g2 x <> 0) by (apply Rgt_not_eq; pose proof (Rsqr_pos_lt _ N); unfold Rsqr in *; nra).
  apply (der_eq _ _ (1 / (1 + (g1 x / g2 x) * (g1 x / g2 x)) * ((l1 * g2 x - g1 x * l2) / (g2 x * g2 x)))).
  - field. auto.
  - apply (der_comp atan (fun h => g1 h / g2 h)); [apply der_quot; auto|]. apply der_atan.
Qed.
Lemma rd_atan2 : forall f1 f2 x l1 l2 v1 v2, rder f1 x l1 -> rder f2 x l2 -> f1 x = Ok v1 -> f2 x = Ok v2 -> v1 <> 0 \/ 0 < v2 ->
  rder (fun h => do a <- f1 h; do b <- f2 h; Ok (atan2 a b)) x (v2 * (1 / (v1 * v1 + v2 * v2)) * l1 + - v1 * (1 / (v1 * v1 + v2 * v2)) * l2).
Proof.
  intros f1 f2 x l1 l2 v1 v2 R1 R2 E1 E2 H. destruct (Rlt_dec 0 v2) as [Hb|Hb].
  - apply (rder_bin _ _ (fun a b => Ok (atan2 a b)) x l1 l2 v1 v2 _ (fun a b => atan (a / b)) v2); auto.
    + intros a b _ Lb. apply Rabs_lt_iff in Lb. rewrite atan2_right by lra. auto.
    + intros g1 g2 V1 V2 D1 D2. eapply der_eq; [|apply der_atan_quot; eauto; lra]. rewrite V1, V2. field. nra.
  - assert (v1 <> 0) as Hn by (destruct H; auto; lra). destruct (Rlt_dec 0 v1) as [Ha|Ha].
    + apply (rder_bin _ _ (fun a b => Ok (atan2 a b)) x l1 l2 v1 v2 _ (fun a b => PI / 2 - atan (b / a)) v1); auto.
      * intros a b La _. apply Rabs_lt_iff in La. rewrite atan2_up by lra. auto.
      * intros g1 g2 V1 V2 D1 D2. eapply der_eq; [|apply der_minus; [apply der_const|apply (der_atan_quot g2 g1); eauto; lra]]. rewrite V1, V2. field. nra.
    + assert (v1 < 0) by lra. apply (rder_bin _ _ (fun a b => Ok (atan2 a b)) x l1 l2 v1 v2 _ (fun a b => - (PI / 2) - atan (b / a)) (- v1)); auto; [lra| |].
      * intros a b La _. apply Rabs_lt_iff in La. rewrite atan2_down by lra. auto.
      * intros g1 g2 V1 V2 D1 D2. eapply der_eq; [|apply der_minus; [apply der_const|apply (der_atan_quot g2 g1); eauto; lra]]. rewrite V1, V2. field. nra.
Qed.
Lemma rd_mul : forall f1 f2 x l1 l2 v1 v2, rder f1 x l1 -> rder f2 x l2 -> f1 x = Ok v1 -> f2 x = Ok v2 -> rder (fun h => do a <- f1 h; do b <- f2 h; Ok (a * b)) x (v2 * l1 + v1 * l2).
Proof.
  intros. apply (rder_bin _ _ (fun a b => Ok (a * b)) x l1 l2 v1 v2 _ Rmult 1); auto; [lra|]. intros g1 g2 V1 V2 D1 D2.
  eapply der_eq; [|apply (der_mul g1 g2); eauto]. rewrite V1, V2. ring.
Qed.
Lemma rd_add : forall f1 f2 x l1 l2 m v1 v2, rder f1 x l1 -> rder f2 x l2 -> f1 x = Ok v1 -> f2 x = Ok v2 -> rder (fun h => do a <- f1 h; do b <- f2 h; Ok (a + m * b)) x (l1 + m * l2).
Proof.
  intros. apply (rder_bin _ _ (fun a b => Ok (a + m * b)) x l1 l2 v1 v2 _ (fun a b => a + m * b) 1); auto; [lra|]. intros g1 g2 V1 V2 D1 D2.
  apply (der_plus g1 (fun h => m * g2 h)); auto. apply der_scal; auto.
Qed.
Lemma rd_div : forall f1 f2 x l1 l2 v1 v2, rder f1 x l1 -> rder f2 x l2 -> f1 x = Ok v1 -> f2 x = Ok v2 -> v2 <> 0 ->
  rder (fun h => do a <- f1 h; do b <- f2 h; fdiv a b) x (1 / v2 * l1 + - v1 * (1 / v2) * (1 / v2) * l2).
Proof.
  intros f1 f2 x l1 l2 v1 v2 R1 R2 E1 E2 N. apply (rder_bin _ _ fdiv x l1 l2 v1 v2 _ Rdiv (Rabs v2)); auto; [apply Rabs_pos_lt; auto| |].
  - intros a b _ Lb. unfold fdiv. destruct Req_EM_T as [->|]; auto. rewrite Rminus_0_l, Rabs_Ropp in Lb. lra.
  - intros g1 g2 V1 V2 D1 D2. eapply der_eq; [|apply der_quot; eauto; congruence]. rewrite V1, V2. field. auto.
Qed.
