(** * Error terms (proofs only) *)
From Coq Require Import Arith Lia List ZArith NArith Bool Reals Lra.
From Verif Require Import Lib_Ring Lib_Real Lib_Res MatrixStack_Model MatrixStack_Spec DesignVar_Base Jacobian_Model Jacobian_Spec Expr_Base Scalar_Model Scalar_Spec Scalar_Calc Scalar_Proofs Scalar_Proofs2
  Geo_Model Geo_Spec Geo_Algebra Geo_Proofs Geo_Tangent Geo_Main Geo_Proofs2 Terms_Model Terms_Spec.
Import ListNotations.
Local Open Scope R_scope.

Lemma con1 : forall w depth d0 a, dv_dim d0 = 1%nat -> contributes 1 w depth [CAdd d0 (one_by_one a)] (fun d i j => if (dv_id d0 =? dv_id d)%nat then a else 0).
Proof. intros w depth d0 a E. unfold one_by_one. rewrite <- E at 3. exact (@con_add R RRing 1 w depth d0 (fun _ _ => a)). Qed.

Lemma room1 : forall al depth, (0 < al)%nat -> (N.of_nat depth * N.of_nat (1 + al) < 4294967296)%N -> stack_room 1 al 1 depth.
Proof. intros al depth Ha H. split; [reflexivity|]. split; [reflexivity|]. exact H. Qed.

Lemma run1 : forall al depth ops (D : dmatrix) dvs, (0 < al)%nat -> (N.of_nat depth * N.of_nat (1 + al) < 4294967296)%N -> contributes 1 1 depth ops D -> wf_dvs dvs -> (forall x, In x (ops_dvs ops) -> In x dvs) ->
  (forall d, In d dvs -> dv_dim d = 1%nat) ->
  exists c, jc_run _ sp_addJ al (sp_init 1) ops = Ok c /\ forall d, In d dvs -> dv_active d = true -> jacobian_entry (jc_store c) d 0 0 = D d 0%nat 0%nat.
Proof.
  intros al depth ops D dvs Ha Hr C W I1 Dm. destruct (contributes_entry 1 1 depth ops D al dvs C Ha eq_refl (stack_room_room _ _ _ _ (room1 al depth Ha Hr)) W I1) as (c & Er & _ & En).
  exists c. split; auto. intros d Hd Ad. apply En; auto. rewrite Dm; auto.
Qed.

Lemma xval_perturb : forall x s d h, xval x (perturb s d 0 h) = if (dv_id d =? dv_id x)%nat then xval x s + h else xval x s.
Proof. intros x s d h. unfold xval, perturb. rewrite Nat.eqb_sym. rewrite Bool.andb_true_r. reflexivity. Qed.

Lemma der_xval : forall x s d, derivable_pt_lim (fun h => xval x (perturb s d 0 h)) 0 (if (dv_id x =? dv_id d)%nat then 1 else 0).
Proof.
  intros x s d. rewrite Nat.eqb_sym. destruct (dv_id d =? dv_id x)%nat eqn:E.
  - apply (der_ext (fun h => xval x s + h)); [intros h; rewrite xval_perturb, E; auto|]. apply (der_eq _ _ (0 + 1)); [ring|]. apply der_plus; [apply der_const|apply der_id].
  - apply (der_ext (fun h => xval x s)); [intros h; rewrite xval_perturb, E; auto|]. apply der_const.
Qed.

Lemma partial_ok : forall (f : state -> R) s d l, derivable_pt_lim (fun h => f (perturb s d 0 h)) 0 l -> partial (fun s => Ok (f s)) s d 0 l.
Proof. intros f s d l H. exists (fun h => f (perturb s d 0 h)), 1. split; [lra|]. split; auto. Qed.

Lemma prior_right : forall al x hat_x s, (0 < al)%nat -> scalars [x] -> jacobians_right al [x] (prior_error x hat_x) (prior_calls x) s.
Proof.
  intros al x hat_x s Ha (W & Dm). destruct (run1 al 0 [CAdd x (one_by_one 1)] _ [x] Ha eq_refl (con1 1 0 x 1 (Dm x (or_introl eq_refl))) W) as (c & Er & En); auto.
  eexists _, _, c. split; [reflexivity|]. split; [reflexivity|]. split; [exact Er|]. intros d Hd Ad. rewrite En by auto.
  apply (partial_ok (fun s => xval x s - hat_x)). apply (der_eq _ _ ((if (dv_id x =? dv_id d)%nat then 1 else 0) - 0)); [ring|]. apply der_minus; [apply der_xval|apply der_const].
Qed.

Lemma motion_right : forall al xk xk1 u s, (0 < al)%nat -> scalars [xk; xk1] -> jacobians_right al [xk; xk1] (motion_error xk xk1 u) (motion_calls xk xk1) s.
Proof.
  intros al xk xk1 u s Ha (W & Dm).
  destruct (run1 al 0 ([CAdd xk (one_by_one (- (1)))] ++ [CAdd xk1 (one_by_one 1)]) _ [xk; xk1] Ha eq_refl
    (conA _ _ _ _ _ _ _ (con1 1 0 xk (- (1)) (Dm xk (or_introl eq_refl))) (con1 1 0 xk1 1 (Dm xk1 (or_intror (or_introl eq_refl))))) W) as (c & Er & En); auto.
  eexists _, _, c. split; [reflexivity|]. split; [reflexivity|]. split; [exact Er|]. intros d Hd Ad. rewrite En by auto. cbn beta.
  apply (partial_ok (fun s => xval xk1 s - xval xk s - u)).
  apply (der_eq _ _ (((if (dv_id xk1 =? dv_id d)%nat then 1 else 0) - (if (dv_id xk =? dv_id d)%nat then 1 else 0)) - 0)).
  { destruct (_ =? _)%nat; destruct (_ =? _)%nat; ring. }
  apply der_minus; [apply der_minus; apply der_xval|apply der_const].
Qed.

Lemma partial_xval : forall x s d, partial (fun s => Ok (xval x s)) s d 0 (if (dv_id x =? dv_id d)%nat then 1 else 0).
Proof. intros. apply partial_ok, der_xval. Qed.

Lemma observation_right : forall al xk w y s, (0 < al)%nat -> scalars [xk; w] -> xval w s <> xval xk s -> jacobians_right al [xk; w] (observation_error xk w y) (observation_calls xk w) s.
Proof.
  intros al xk w y s Ha (W & Dm) N. assert (N' : xval w s - xval xk s <> 0) by lra. set (q := -1 / (xval w s - xval xk s)).
  destruct (run1 al 0 ([CAdd xk (one_by_one (- (q * q)))] ++ [CAdd w (one_by_one (q * q))]) _ [xk; w] Ha eq_refl
    (conA _ _ _ _ _ _ _ (con1 1 0 xk (- (q * q)) (Dm xk (or_introl eq_refl))) (con1 1 0 w (q * q) (Dm w (or_intror (or_introl eq_refl))))) W) as (c & Er & En); auto.
  exists (y - 1 / (xval w s - xval xk s)), ([CAdd xk (one_by_one (- (q * q)))] ++ [CAdd w (one_by_one (q * q))]), c.
  split; [unfold observation_error, fdiv; destruct Req_EM_T; [contradiction|reflexivity]|]. split; [unfold observation_calls, fdiv; destruct Req_EM_T; [contradiction|reflexivity]|]. split; [exact Er|].
  intros d Hd Ad. rewrite En by auto. cbn beta.
  set (lw := if (dv_id w =? dv_id d)%nat then 1 else 0). set (lx := if (dv_id xk =? dv_id d)%nat then 1 else 0).
  apply (rder_eq _ _ (lw * (q * q) - lx * (q * q))). { unfold lw, lx. clear. destruct (dv_id w =? dv_id d)%nat; destruct (dv_id xk =? dv_id d)%nat; ring. }
  assert (D : derivable_pt_lim (fun h => xval w (perturb s d 0 h) - xval xk (perturb s d 0 h)) 0 (lw - lx)) by (apply der_minus; apply der_xval).
  assert (E0 : xval w (perturb s d 0 0) - xval xk (perturb s d 0 0) = xval w s - xval xk s) by (rewrite (xval_perturb w), (xval_perturb xk); destruct (dv_id d =? dv_id w)%nat; destruct (dv_id d =? dv_id xk)%nat; ring).
  destruct (der_close _ _ _ (Rabs (xval w s - xval xk s)) D) as (de & Hde & Cl); [apply Rabs_pos_lt; auto|].
  exists (fun h => y - / (xval w (perturb s d 0 h) - xval xk (perturb s d 0 h))), de. split; auto. split.
  - intros h Hh. unfold observation_error, fdiv. destruct Req_EM_T as [Z|Z].
    + exfalso. specialize (Cl h Hh). rewrite Z, E0, Rminus_0_l, Rabs_Ropp in Cl. lra.
    + cbn [bind]. unfold Rdiv. rewrite Rmult_1_l. reflexivity.
  - assert (DI := der_inv _ _ _ D). cbn beta in DI. rewrite E0 in DI. specialize (DI N'). eapply der_eq; [|apply (der_minus (fun _ => y)); [apply der_const|exact DI]]. unfold q. field. auto.
Qed.

(** ** L1Regularizer *)
Definition l1D (dvs : list dvr) (s : state) : dmatrix := fun d _ _ => dsum dvs (fun e => if dv_active e then if (dv_id e =? dv_id d)%nat then l1_sign (xval e s) else 0 else 0).
Definition l1_list (dvs : list dvr) (s : state) : list (@cop R) := flat_map (fun d => if dv_active d then [CAdd d (one_by_one (l1_sign (xval d s)))] else []) dvs.
Lemma l1_con : forall dvs s w depth, (forall d, In d dvs -> dv_dim d = 1%nat) -> contributes 1 w depth (l1_list dvs s) (l1D dvs s).
Proof.
  induction dvs as [|d dvs IH]; intros s w depth Dm; cbn [l1_list flat_map l1D dsum]; [apply con0|].
  assert (C := IH s w depth (fun x Hx => Dm x (or_intror Hx))). unfold l1_list in C. unfold l1D. cbn [dsum]. destruct (dv_active d).
  - apply conA; [apply con1; apply Dm; left; auto|exact C].
  - eapply con_ext; [|exact C]. intros d' i j _. unfold l1D. cbn. ring.
Qed.
Lemma l1_dvs : forall dvs s x, In x (ops_dvs (l1_list dvs s)) -> In x dvs.
Proof.
  induction dvs as [|d dvs IH]; intros s x H; cbn [l1_list flat_map] in H; [exact H|]. rewrite ops_app in H. apply in_app_or in H. destruct H as [H|H]; [|right; eapply IH; exact H].
  destruct (dv_active d); [|destruct H]. left. destruct H as [H|[]]. auto.
Qed.
Lemma fold_l1 : forall dvs s a, fold_left (fun sum d => if dv_active d then sum + Rabs (xval d s) else sum) dvs a = a + dsum dvs (fun d => if dv_active d then Rabs (xval d s) else 0).
Proof. induction dvs as [|d dvs IH]; intros s a; cbn [fold_left dsum]; [ring|]. rewrite IH. destruct (dv_active d); ring. Qed.
Lemma l1_sum_dsum : forall dvs s, l1_sum dvs s = dsum dvs (fun d => if dv_active d then Rabs (xval d s) else 0).
Proof. intros. unfold l1_sum. rewrite fold_l1. ring. Qed.
Lemma dsum_ext : forall l f g, (forall d, In d l -> f d = g d) -> dsum l f = dsum l g.
Proof. induction l as [|d l IH]; intros f g H; cbn [dsum]; auto. rewrite (H d), (IH f g); auto; [intros; apply H; right; auto|left; auto]. Qed.
Lemma dsum_le : forall l f g, (forall d, In d l -> f d <= g d) -> dsum l f <= dsum l g.
Proof. induction l as [|d l IH]; intros f g H; cbn [dsum]; [lra|]. pose proof (H d (or_introl eq_refl)). pose proof (IH f g (fun x Hx => H x (or_intror Hx))). lra. Qed.
Lemma dsum_add : forall l f g, dsum l (fun d => f d + g d) = dsum l f + dsum l g.
Proof. induction l as [|d l IH]; intros f g; cbn [dsum]; [ring|]. rewrite IH. ring. Qed.
Lemma dsum_scal : forall l f a, dsum l (fun d => a * f d) = a * dsum l f.
Proof. induction l as [|d l IH]; intros f a; cbn [dsum]; [ring|]. rewrite IH. ring. Qed.
Lemma dsum_zero : forall l, dsum l (fun _ => 0) = 0.
Proof. induction l as [|d l IH]; cbn [dsum]; [auto|]. rewrite IH. ring. Qed.
Lemma dsum_swap : forall l m f, dsum l (fun d => dsum m (fun e => f d e)) = dsum m (fun e => dsum l (fun d => f d e)).
Proof. induction l as [|d l IH]; intros m f; cbn [dsum]; [symmetry; apply dsum_zero|]. rewrite IH, <- dsum_add. reflexivity. Qed.
Lemma dsum_pick : forall l e f, NoDup l -> (forall d d', In d (e :: l) -> In d' (e :: l) -> dv_id d = dv_id d' -> d = d') -> In e l -> dsum l (fun d => if (dv_id e =? dv_id d)%nat then f d else 0) = f e.
Proof.
  induction l as [|d l IH]; intros e f ND U H; [destruct H|]. inversion ND; subst. cbn [dsum]. destruct (Nat.eqb_spec (dv_id e) (dv_id d)) as [E|E].
  - assert (e = d) by (apply U; auto; [left; auto|right; left; auto]). subst d. rewrite (dsum_ext l _ (fun _ => 0)); [rewrite dsum_zero; ring|].
    intros x Hx. destruct (Nat.eqb_spec (dv_id e) (dv_id x)) as [E'|]; auto. exfalso. assert (e = x) by (apply U; auto; [left; auto|right; right; auto]). subst x. contradiction.
  - destruct H as [<-|H]; [contradiction|]. rewrite IH; auto; [ring|]. intros a b Ha Hb. apply U; [destruct Ha; [left|right; right]|destruct Hb; [left|right; right]]; auto.
Qed.

Lemma sign_sub : forall p q, Rabs q >= Rabs p + l1_sign p * (q - p).
Proof.
  intros p q. unfold l1_sign. destruct (Rlt_dec 0 p), (Rlt_dec p 0); try lra; unfold Rabs; destruct (Rcase_abs q), (Rcase_abs p); lra.
Qed.

Lemma l1_run : forall al t dvs s, (0 < al)%nat -> (N.of_nat (1 + al) < 4294967296)%N -> scalars dvs ->
  exists ops c, l1_evaluateRawJacobians t (Some dvs) s = Ok ops /\ jc_run _ sp_addJ al (sp_init 1) ops = Ok c /\
    forall d, In d dvs -> dv_active d = true -> jacobian_entry (jc_store c) d 0 0 = l1_w t * l1D dvs s d 0%nat 0%nat.
Proof.
  intros al t dvs s Ha Hr (W & Dm).
  destruct (run1 al 1 (scope (CApplyS (l1_w t)) (l1_list dvs s)) _ dvs Ha ltac:(lia) (conS 1 1 0 _ _ (l1_w t) (le_n 1) (l1_con dvs s 1 0 Dm)) W) as (c & Er & En); auto.
  { intros x Hx. rewrite ops_scopeS in Hx. eapply l1_dvs; eauto. }
  eexists _, c. split; [reflexivity|]. split; [exact Er|]. exact En.
Qed.

Lemma l1_subgradient : forall al dvs beta s, (0 < al)%nat -> (N.of_nat (1 + al) < 4294967296)%N -> scalars dvs -> 0 <= beta ->
  exists v ops c, l1_updateRawError (l1_new dvs beta) (Some dvs) s = Ok v /\ l1_evaluateRawJacobians (l1_new dvs beta) (Some dvs) s = Ok ops /\ jc_run _ sp_addJ al (sp_init 1) ops = Ok c /\
    forall s' v' l, l1_updateRawError (l1_new dvs beta) (Some dvs) s' = Ok v' -> each_active dvs l ->
      v + dsum l (fun d => jacobian_entry (jc_store c) d 0 0 * (xval d s' - xval d s)) <= v'.
Proof.
  intros al dvs beta s Ha Hr HS Hb. destruct (l1_run al (l1_new dvs beta) dvs s Ha Hr HS) as (ops & c & E1 & E2 & En). exists (beta * l1_sum dvs s), ops, c. split; [reflexivity|]. split; auto. split; auto.
  intros s' v' l E (ND & Hl). cbn in E. injection E as <-. cbn [l1_w l1_new] in En.
  rewrite (dsum_ext l _ (fun d => beta * dsum dvs (fun e => if (dv_id e =? dv_id d)%nat then (if dv_active e then l1_sign (xval e s) else 0) * (xval d s' - xval d s) else 0))).
  2: { intros d Hd. apply Hl in Hd. rewrite En by tauto. unfold l1D. rewrite Rmult_assoc. f_equal. rewrite Rmult_comm, <- dsum_scal. apply dsum_ext. intros e He. destruct (dv_active e), (_ =? _)%nat; ring. }
  rewrite dsum_scal, dsum_swap.
  rewrite (dsum_ext dvs _ (fun e => if dv_active e then l1_sign (xval e s) * (xval e s' - xval e s) else 0)).
  2: { intros e He. destruct (dv_active e) eqn:A.
       - apply (dsum_pick l e (fun d => l1_sign (xval e s) * (xval d s' - xval d s))); auto; [|apply Hl; auto].
         intros a b Ha' Hb'. destruct HS as ((U & _) & _). assert (I : forall x, In x (e :: l) -> In x dvs) by (intros x [<-|Hx]; auto; apply Hl; auto). apply U; auto.
       - rewrite (dsum_ext l _ (fun _ => 0)); [apply dsum_zero|]. intros d Hd. destruct (_ =? _)%nat; ring. }
  rewrite !l1_sum_dsum. rewrite <- Rmult_plus_distr_l. apply Rmult_le_compat_l; auto. rewrite <- dsum_add. apply dsum_le. intros d Hd. destruct (dv_active d); [|lra].
  pose proof (sign_sub (xval d s) (xval d s')). lra.
Qed.

Lemma der_abs : forall (f : R -> R) x l, derivable_pt_lim f x l -> f x <> 0 -> derivable_pt_lim (fun h => Rabs (f h)) x (l1_sign (f x) * l).
Proof.
  intros f x l D N. apply (der_comp Rabs f x l); auto. unfold l1_sign. destruct (Rlt_dec 0 (f x)), (Rlt_dec (f x) 0); try lra.
  - replace (1 - 0) with 1 by ring. apply Rabs_derive_1; auto.
  - replace (0 - 1) with (-1) by ring. apply Rabs_derive_2; auto.
Qed.
Lemma der_dsum : forall l (f : dvr -> R -> R) (f' : dvr -> R) x, (forall d, In d l -> derivable_pt_lim (f d) x (f' d)) -> derivable_pt_lim (fun h => dsum l (fun d => f d h)) x (dsum l f').
Proof. induction l as [|d l IH]; intros f f' x H; cbn [dsum]; [apply der_const|]. apply der_plus; [apply H; left; auto|apply IH; intros; apply H; right; auto]. Qed.

Lemma l1_derivative : forall al dvs beta s, (0 < al)%nat -> (N.of_nat (1 + al) < 4294967296)%N -> scalars dvs ->
  exists ops c, l1_evaluateRawJacobians (l1_new dvs beta) (Some dvs) s = Ok ops /\ jc_run _ sp_addJ al (sp_init 1) ops = Ok c /\
    forall d, In d dvs -> dv_active d = true -> xval d s <> 0 -> partial (l1_updateRawError (l1_new dvs beta) (Some dvs)) s d 0 (jacobian_entry (jc_store c) d 0 0).
Proof.
  intros al dvs beta s Ha Hr HS. destruct (l1_run al (l1_new dvs beta) dvs s Ha Hr HS) as (ops & c & E1 & E2 & En). exists ops, c. split; auto. split; auto. intros d Hd Ad Nz. rewrite En by auto. cbn [l1_w l1_new].
  apply (partial_ok (fun s => beta * l1_sum dvs s)). apply der_scal. apply (der_ext (fun h => dsum dvs (fun e => if dv_active e then Rabs (xval e (perturb s d 0 h)) else 0))); [intros; symmetry; apply l1_sum_dsum|].
  apply (der_dsum dvs (fun e h => if dv_active e then Rabs (xval e (perturb s d 0 h)) else 0)). intros e He. destruct (dv_active e); [|apply der_const]. destruct (Nat.eqb_spec (dv_id e) (dv_id d)) as [E|E].
  - assert (e = d) by (destruct HS as ((U & _) & _); apply U; auto). subst e. assert (D := der_xval d s d). rewrite Nat.eqb_refl in D. assert (Z : xval d (perturb s d 0 0) = xval d s) by (rewrite xval_perturb, Nat.eqb_refl; ring).
    apply der_abs in D; [|rewrite Z; auto]. rewrite Z, Rmult_1_r in D. exact D.
  - apply (der_ext (fun _ => Rabs (xval e s))); [|apply der_const]. intros h. rewrite xval_perturb. destruct (Nat.eqb_spec (dv_id d) (dv_id e)) as [E'|]; [congruence|auto].
Qed.
