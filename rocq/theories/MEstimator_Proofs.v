(** * Robust losses and proofs about the weights *)
From Coq Require Import Reals Lra Lia List.
From Verif Require Import Lib_Ring Lib_Real MEstimator_Model MEstimator_Spec.
Import ListNotations.
Open Scope R_scope.

Lemma weight_pos : forall m s, tuned m -> 0 <= s -> 0 < getWeight m s.
Proof.
  intros m s T Hs. destruct m; cbn in *.
  - lra.
  - apply Rdiv_lt_0_compat; auto. apply Rmult_lt_0_compat; lra.
  - assert (0 <= s / sigma2). { apply Rmult_le_pos; auto. left. apply Rinv_0_lt_compat; auto. }
    apply Rdiv_lt_0_compat; lra.
  - destruct (Rlt_dec s (k * k)); [lra|]. apply Rdiv_lt_0_compat; auto. apply sqrt_lt_R0.
    assert (0 < k * k) by (apply Rmult_lt_0_compat; auto). lra.
  - apply Rdiv_lt_0_compat. apply exp_pos. pose proof (exp_pos (- s)). lra.
  - auto.
Qed.

Lemma div_antitone : forall a b c, 0 <= a -> 0 < b -> b <= c -> a / c <= a / b.
Proof.
  intros. unfold Rdiv. apply Rmult_le_compat_l; auto. apply Rinv_le_contravar; auto.
Qed.

Lemma weight_antitone : forall m s s', tuned m -> 0 <= s -> s <= s' -> getWeight m s' <= getWeight m s.
Proof.
  intros m s s' T Hs Hss. destruct m; cbn in *.
  - lra.
  - apply div_antitone; try lra. apply Rmult_lt_0_compat; lra. apply Rmult_le_compat; lra.
  - assert (0 <= s / sigma2). { apply Rmult_le_pos; auto. left. apply Rinv_0_lt_compat; auto. }
    assert (s / sigma2 <= s' / sigma2). { apply Rmult_le_compat_r; auto. left. apply Rinv_0_lt_compat; auto. }
    apply div_antitone; lra.
  - assert (K : 0 < k * k) by (apply Rmult_lt_0_compat; auto).
    destruct (Rlt_dec s (k * k)), (Rlt_dec s' (k * k)); try lra.
    + (* k / sqrt s' <= 1 *)
      assert (k <= sqrt s'). { rewrite <- (sqrt_square k) by lra. apply sqrt_le_1; lra. }
      apply (Rmult_le_reg_r (sqrt s')). lra. unfold Rdiv. rewrite Rmult_assoc, Rinv_l by lra. lra.
    + apply div_antitone. lra. apply sqrt_lt_R0; lra. apply sqrt_le_1; lra.
  - assert (E : exp (- s') <= exp (- s)).
    { destruct Hss as [L| ->]; [|lra]. left. apply exp_increasing. lra. }
    pose proof (exp_pos (- s)). pose proof (exp_pos (- s')).
    apply (Rmult_le_reg_r ((exp (- s') + epsilon) * (exp (- s) + epsilon))).
    { apply Rmult_lt_0_compat; lra. }
    replace (exp (- s') / (exp (- s') + epsilon) * ((exp (- s') + epsilon) * (exp (- s) + epsilon)))
      with (exp (- s') * (exp (- s) + epsilon)) by (field; lra).
    replace (exp (- s) / (exp (- s) + epsilon) * ((exp (- s') + epsilon) * (exp (- s) + epsilon)))
      with (exp (- s) * (exp (- s') + epsilon)) by (field; lra).
    assert (exp (- s') * epsilon <= exp (- s) * epsilon) by (apply Rmult_le_compat_r; lra). lra.
  - lra.
Qed.

(** gluing two functions with equal value and derivative *)
Lemma der_local : forall (f g : R -> R) x l (d : posreal), (forall y, Rabs (y - x) < d -> f y = g y) ->
  derivable_pt_lim f x l -> derivable_pt_lim g x l.
Proof.
  intros f g x l d E H eps He. destruct (H eps He) as [d' Hd].
  assert (Hm : 0 < Rmin d d') by (apply Rmin_glb_lt; apply cond_pos).
  exists (mkposreal _ Hm). cbn. intros h H1 H2.
  rewrite <- !E. apply Hd; auto. eapply Rlt_le_trans; [exact H2|apply Rmin_r].
  rewrite Rminus_diag_eq by auto. rewrite Rabs_R0. apply cond_pos.
  replace (x + h - x) with h by ring. eapply Rlt_le_trans; [exact H2|apply Rmin_l].
Qed.
Lemma der_glue : forall (f g h : R -> R) x l, (forall y, y <= x -> h y = f y) -> (forall y, x <= y -> h y = g y) ->
  derivable_pt_lim f x l -> derivable_pt_lim g x l -> derivable_pt_lim h x l.
Proof.
  intros f g h x l Ef Eg Hf Hg eps He. destruct (Hf eps He) as [d1 H1]. destruct (Hg eps He) as [d2 H2].
  assert (Hm : 0 < Rmin d1 d2) by (apply Rmin_glb_lt; apply cond_pos).
  exists (mkposreal _ Hm). cbn. intros t Ht Hd.
  destruct (Rle_dec t 0).
  - rewrite !Ef by lra. apply H1; auto. eapply Rlt_le_trans; [exact Hd|apply Rmin_l].
  - rewrite !Eg by lra. apply H2; auto. eapply Rlt_le_trans; [exact Hd|apply Rmin_r].
Qed.

Lemma der_ln : forall f x f', derivable_pt_lim f x f' -> 0 < f x -> derivable_pt_lim (fun h => ln (f h)) x (/ f x * f').
Proof. intros. apply (der_comp ln f); auto. apply derivable_pt_lim_ln; auto. Qed.
Lemma der_exp : forall f x f', derivable_pt_lim f x f' -> derivable_pt_lim (fun h => exp (f h)) x (exp (f x) * f').
Proof. intros. apply (der_comp exp f); auto. apply derivable_pt_lim_exp; auto. Qed.

Lemma huber_outer : forall k s, 0 < k -> k * k <= s -> derivable_pt_lim (fun s => 2 * k * sqrt s - k * k) s (k / sqrt s).
Proof.
  intros k s Hk Hs. assert (0 < k * k) by (apply Rmult_lt_0_compat; auto).
  assert (0 < sqrt s) by (apply sqrt_lt_R0; lra).
  eapply der_eq. 2:{ apply der_minus. apply der_scal. apply derivable_pt_lim_sqrt. lra. apply der_const. }
  field. lra.
Qed.

Lemma loss_derivative : forall m s, tuned m -> 0 <= s -> derivable_pt_lim (loss m) s (getWeight m s).
Proof.
  intros m s T Hs. destruct m; cbn in T; unfold loss, getWeight.
  - apply der_id.
  - eapply der_ext with (f := fun s => s * / (sigma2 + s)). { intros; reflexivity. }
    eapply der_eq. 2:{ apply der_mul. apply der_id. apply der_inv. apply der_plus. apply der_const. apply der_id. lra. }
    cbn. field. lra.
  - assert (Q : 0 <= s / sigma2). { apply Rmult_le_pos; auto. left. apply Rinv_0_lt_compat; auto. }
    eapply der_eq. 2:{ apply der_scal. apply der_ln. apply der_plus. apply der_const.
      apply (der_scal_r (fun s => s)). apply der_id. cbn. lra. }
    cbn. field. split; lra.
  - assert (K : 0 < k * k) by (apply Rmult_lt_0_compat; auto).
    destruct (Rlt_dec s (k * k)) as [L|L].
    + assert (P : 0 < k * k - s) by lra.
      apply der_local with (f := fun s => s) (d := mkposreal _ P); [|apply der_id].
      cbn. intros y Hy. destruct (Rle_dec y (k * k)); auto. exfalso.
      assert (y - s <= Rabs (y - s)) by apply RRle_abs. lra.
    + destruct (Req_dec s (k * k)) as [E|E].
      * rewrite E. apply der_glue with (f := fun s => s) (g := fun s => 2 * k * sqrt s - k * k).
        -- intros y Hy. destruct (Rle_dec y (k * k)); auto; lra.
        -- intros y Hy. destruct (Rle_dec y (k * k)); auto. assert (y = k * k) by lra. subst.
           rewrite sqrt_square by lra. ring.
        -- apply der_eq with (l := 1); [|apply der_id]. rewrite sqrt_square by lra. field. lra.
        -- apply huber_outer; lra.
      * assert (P : 0 < s - k * k) by lra.
        apply der_local with (f := fun s => 2 * k * sqrt s - k * k) (d := mkposreal _ P); [|apply huber_outer; lra].
        cbn. intros y Hy. destruct (Rle_dec y (k * k)); auto. exfalso.
        assert (s - y <= Rabs (y - s)) by (rewrite Rabs_minus_sym; apply RRle_abs). lra.
  - pose proof (exp_pos (- s)).
    eapply der_eq. 2:{ apply der_opp. apply der_ln. apply der_plus. apply der_exp. apply der_opp. apply der_id. apply der_const. cbn. lra. }
    cbn. field. lra.
  - eapply der_eq. 2:{ apply der_scal. apply der_id. } ring.
Qed.

Lemma weight_one : forall m, match m with NoM => True | Cauchy a | Huber a => 0 < a | _ => False end ->
  getWeight m 0 = 1 /\ forall s, 0 <= s -> getWeight m s <= 1.
Proof.
  intros m H. assert (E : getWeight m 0 = 1).
  { destruct m; cbn in *; try contradiction; auto.
    - field. lra.
    - destruct (Rlt_dec 0 (k * k)); auto. exfalso. apply n. apply Rmult_lt_0_compat; auto. }
  split; auto. intros s Hs. rewrite <- E. apply weight_antitone; auto; try lra. destruct m; cbn in *; tauto.
Qed.

Lemma blake_zisserman_cut : forall quantile df pCut wCut, 0 < wCut < 1 ->
  tuned (makeBlakeZisserman quantile df pCut wCut) /\
  getWeight (makeBlakeZisserman quantile df pCut wCut) (quantile df pCut) = wCut /\
  (forall s, 0 <= s -> getWeight (makeBlakeZisserman quantile df pCut wCut) s < 1).
Proof.
  intros quantile df pCut wCut H.
  assert (P : 0 < computeEpsilon quantile df pCut wCut).
  { unfold computeEpsilon. apply Rmult_lt_0_compat; [|apply exp_pos]. apply Rdiv_lt_0_compat; lra. }
  split; [exact P|]. split.
  - cbn. unfold computeEpsilon. pose proof (exp_pos (- quantile df pCut)). field.
    lra.
  - intros s Hs. cbn. pose proof (exp_pos (- s)).
    apply (Rmult_lt_reg_r (exp (- s) + computeEpsilon quantile df pCut wCut)). lra.
    unfold Rdiv. rewrite Rmult_assoc, Rinv_l by lra. lra.
Qed.

(** the weighted squared error w(s) s is not the robust loss: its derivative differs *)
Lemma cauchy_reported_error_not_loss :
  ~ derivable_pt_lim (fun s => getWeight (Cauchy 1) s * s) 1 (getWeight (Cauchy 1) 1).
Proof.
  intros H.
  assert (D : derivable_pt_lim (fun s => getWeight (Cauchy 1) s * s) 1 (1/4)).
  { cbn. eapply der_eq. 2:{ apply der_mul. apply (der_scal (fun s => / (1 + s / 1)) 1 (-1/4) 1).
      eapply der_eq. 2:{ apply der_inv. apply der_plus. apply der_const. apply (der_scal_r (fun s => s)). apply der_id. cbn. lra. }
      cbn. field. apply der_id. } cbn. field. }
  pose proof (uniqueness_limite _ _ _ _ H D) as E. cbn in E. lra.
Qed.

(** ** data association *)
Lemma rsum_cons : forall x l, rsum (x :: l) = x + rsum l. Proof. reflexivity. Qed.
Lemma fold_exp : forall m l a, fold_left (fun acc lw => acc + exp (lw - m)) l a = a + rsum (map (fun lw => exp (lw - m)) l).
Proof. induction l; intros; cbn [fold_left map]. cbn; ring. rewrite IHl, rsum_cons. ring. Qed.
Lemma rsum_exp_shift : forall m l, rsum (map (fun lw => exp (lw - m)) l) = rsum (map exp l) / exp m.
Proof.
  induction l; cbn [map]. cbn. field. pose proof (exp_pos m); lra. rewrite !rsum_cons, IHl. unfold Rminus. rewrite exp_plus, exp_Ropp.
  pose proof (exp_pos m). field. lra.
Qed.
Lemma rsum_exp_pos : forall l, l <> [] -> 0 < rsum (map exp l).
Proof.
  assert (G : forall l, 0 <= rsum (map exp l)).
  { induction l; cbn [map]. cbn; lra. pose proof (exp_pos a). rewrite rsum_cons. lra. }
  intros [|a l] H; [congruence|]. cbn [map]. pose proof (exp_pos a). pose proof (G l). rewrite rsum_cons. lra.
Qed.
Lemma norm_const : forall sf sq, sq <> [] -> log_norm_constant sf sq = ln (rsum (map exp (log_weights sf sq))).
Proof.
  intros sf sq H. unfold log_norm_constant. rewrite fold_exp, rsum_exp_shift, Rplus_0_l.
  assert (P : 0 < rsum (map exp (log_weights sf sq))) by (apply rsum_exp_pos; destruct sq; [congruence|discriminate]).
  pose proof (exp_pos (max_log_weight sf sq)).
  unfold Rdiv. rewrite ln_mult, ln_Rinv, ln_exp; auto. ring. apply Rinv_0_lt_compat; auto.
Qed.
(** the running maximum is attained and bounds all log weights (so the exponentials do not overflow) *)
Lemma max_loop_spec : forall sf sq mx, match max_loop sf sq mx with
  | Some m => (mx = Some m \/ In m (log_weights sf sq)) /\ (forall x, mx = Some x -> x <= m) /\ (forall x, In x (log_weights sf sq) -> x <= m)
  | None => mx = None /\ sq = [] end.
Proof.
  induction sq as [|s sq IH]; intros mx; cbn [max_loop].
  - destruct mx; auto. split; auto. split. intros x E; injection E as <-; lra. intros x [].
  - match goal with |- context [max_loop sf sq ?m] => specialize (IH m); destruct (max_loop sf sq m) end.
    + destruct IH as (A & B & C). cbn. destruct mx as [m|].
      * destruct (Rlt_dec m (sf * s)).
        -- split. destruct A as [A|A]; [injection A as <-; auto|auto]. pose proof (B _ eq_refl).
           split. intros x E; injection E as <-; lra. intros x [<-|X]; auto.
        -- split. destruct A as [A|A]; auto. pose proof (B _ eq_refl).
           split. intros x E; injection E as <-; lra. intros x [<-|X]; auto; lra.
      * pose proof (B _ eq_refl). split. destruct A as [A|A]; [injection A as <-; auto|auto].
        split. intros x E; discriminate. intros x [<-|X]; auto.
    + destruct IH as [A _]. destruct mx as [m|]; [destruct (Rlt_dec m (sf * s)); discriminate|discriminate].
Qed.

Lemma callback_softmax : forall lambda sq, sq <> [] ->
  map exp (callback_group lambda sq) =
    map (fun s => exp (- lambda / 2 * s) / rsum (map (fun s => exp (- lambda / 2 * s)) sq)) sq /\
  rsum (map exp (callback_group lambda sq)) = 1.
Proof.
  intros lambda sq H.
  set (Z := rsum (map (fun s => exp (- lambda / 2 * s)) sq)).
  assert (EZ : rsum (map exp (log_weights (scaling_factor lambda) sq)) = Z).
  { unfold Z, log_weights, scaling_factor. rewrite map_map. reflexivity. }
  assert (P : 0 < Z). { rewrite <- EZ. apply rsum_exp_pos. destruct sq; [congruence|discriminate]. }
  assert (A : map exp (callback_group lambda sq) = map (fun s => exp (- lambda / 2 * s) / Z) sq).
  { unfold callback_group. rewrite norm_const, EZ by auto. unfold log_weights. rewrite !map_map. apply map_ext. intros s.
    unfold Rminus. rewrite exp_plus, exp_Ropp, exp_ln by auto. reflexivity. }
  split; auto. rewrite A.
  assert (G : forall l, rsum (map (fun s => exp (- lambda / 2 * s) / Z) l) = rsum (map (fun s => exp (- lambda / 2 * s)) l) / Z).
  { induction l; cbn [map]. cbn; field; lra. rewrite !rsum_cons, IHl. field. lra. }
  rewrite G. fold Z. field. lra.
Qed.

Lemma stored_weights_not_positive : forall lambda sq, (2 <= length sq)%nat ->
  Forall (fun w => w < 0) (callback_group lambda sq).
Proof.
  intros lambda sq H.
  assert (NE : sq <> []) by (destruct sq; cbn in H; [lia|discriminate]).
  unfold callback_group. rewrite norm_const by auto.
  set (l := log_weights (scaling_factor lambda) sq).
  assert (L : (2 <= length l)%nat) by (unfold l, log_weights; rewrite map_length; auto). clearbody l. clear -L.
  apply Forall_forall. intros w Hw. apply in_map_iff in Hw. destruct Hw as (x & <- & Hx).
  assert (E : exp x < rsum (map exp l)).
  { apply in_split in Hx. destruct Hx as (l1 & l2 & ->).
    assert (G : forall a b, rsum (map exp (a ++ x :: b)) = exp x + rsum (map exp (a ++ b))).
    { clear. induction a; intros; cbn [map app]. reflexivity. rewrite !rsum_cons, IHa. ring. }
    rewrite G. assert (l1 ++ l2 <> []). { intros E. apply (f_equal (@length R)) in E. rewrite app_length in *. cbn in *. lia. }
    pose proof (rsum_exp_pos _ H). lra. }
  pose proof (exp_pos x). assert (x < ln (rsum (map exp l))); [|lra].
  rewrite <- (ln_exp x) at 1. apply ln_increasing; auto.
Qed.
Lemma stored_weights_sum : forall lambda sq, rsum (callback_group lambda sq) <= 0.
Proof.
  intros lambda sq. destruct sq as [|s [|s' sq]].
  - cbn. lra.
  - unfold callback_group. rewrite norm_const by discriminate. cbn. rewrite !Rplus_0_r, ln_exp. lra.
  - pose proof (stored_weights_not_positive lambda (s :: s' :: sq) ltac:(cbn; lia)) as F.
    induction F. cbn; lra. rewrite rsum_cons. lra.
Qed.

Lemma max_log_weight_ok : forall sf sq, sq <> [] ->
  In (max_log_weight sf sq) (log_weights sf sq) /\ forall x, In x (log_weights sf sq) -> exp (x - max_log_weight sf sq) <= 1.
Proof.
  intros sf sq H. unfold max_log_weight. pose proof (max_loop_spec sf sq None) as M. destruct (max_loop sf sq None) as [m|].
  - destruct M as ([A|A] & _ & C); [discriminate|]. split; auto. intros x Hx. specialize (C x Hx).
    rewrite <- exp_0. destruct (Req_dec x m) as [->|N]. right. f_equal. ring. left. apply exp_increasing. lra.
  - destruct M; congruence.
Qed.
Lemma huber_example : tuned (Huber 2) /\ getWeight (Huber 2) 16 = 1/2 /\ getWeight (Huber 2) 3 = 1.
Proof.
  cbn. split; [lra|]. split.
  - destruct (Rlt_dec 16 (2 * 2)); [lra|]. replace 16 with (4 * 4) by ring. rewrite sqrt_square by lra. field.
  - destruct (Rlt_dec 3 (2 * 2)); lra.
Qed.
