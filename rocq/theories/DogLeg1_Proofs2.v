(** * optimizeDogLeg: completion, the marginalised case, stationary starts, examples *)
From Coq Require Import ZArith Reals List Bool Lra Lia.
From Verif Require Import Lib_Ring Lib_Real Policy_Model Policy_Spec Policy_Proofs Policy_Proofs2 DogLeg1_Model DogLeg1_Spec DogLeg1_Proofs.
Import ListNotations.
Open Scope R_scope.

Section Complete.
  Context {W : Type}.
  Variable E : denv W.
  Variable o : dopts.
  Variable n : nat.
  Hypothesis CF : forall w, exists c, fst (y_eval E w) = Fin c.
  Hypothesis GN0 : forall w, let sys := fst (y_build E w) in vdot n (mvmul n (fst sys) (snd sys)) (mvmul n (fst sys) (snd sys)) <> 0.
  Definition good (s : dstate W) : Prop := 0 <= sdelta s /\ vdot n (mvmul n (fst (ssys s)) (snd (ssys s))) (mvmul n (fst (ssys s)) (snd (ssys s))) <> 0.
  Lemma attempt_fine : forall s sd scl gn, good s -> exists s1 gn1 rho, attempt E o n n s sd (norm n sd) scl gn = Fine (s1, gn1, rho) /\ good s1.
  Proof.
    intros s sd scl gn (G1 & G2). pose proof (attempt_delta E o n n s sd scl gn) as AD. unfold attempt in *.
    destruct (pick_num E o n n (sdelta s) sd scl (sJ s) gn (sw s) G1) as (P1 & P2 & P3). specialize (P2 eq_refl).
    destruct (pick E o n n (sdelta s) (norm n sd) scl (sJ s) sd gn (sw s)) as [[[[[[d1 dx] L0] ty] gn2] w0]| | |]; try contradiction. cbn [obind] in *.
    destruct (y_apply E w0 dx) as [dX w1]. pose proof (CF w1) as C1. destruct (y_eval E w1) as [c w2]. destruct C1 as (r & Er). cbn in Er. subst c.
    destruct (xgt (ratio (sp s) (Fin r) L0) 0).
    - pose proof (GN0 w2) as B. destruct (y_build E w2) as [sys w3]. cbn in B. eexists _, _, _. split; [reflexivity|]. split; [|exact B]. eapply AD; [auto|reflexivity].
    - pose proof (CF (y_revert E w2)) as C2. destruct (y_eval E (y_revert E w2)) as [c w4]. destruct C2 as (r2 & Er). cbn in Er. subst c.
      eexists _, _, _. split; [reflexivity|]. split; [|exact G2]. eapply AD; [auto|reflexivity].
  Qed.
  Lemma inner_fine : forall f s sd scl gn, good s -> inner E o n n f s sd (norm n sd) scl gn = NoFuel \/ exists s1, inner E o n n f s sd (norm n sd) scl gn = Fine s1 /\ good s1.
  Proof.
    induction f as [|f IH]; intros s sd scl gn G; [auto|]. cbn [inner]. destruct (attempt_fine s sd scl gn G) as (s1 & gn1 & rho & -> & G1). cbn [obind].
    destruct (xlt rho 0 && rlt (o_dX o) (sdelta s1)); [auto|right; eauto].
  Qed.
  Lemma passes_fine : forall k f s, good s -> passes E o n n k f s = NoFuel \/ exists s1, passes E o n n k f s = Fine s1.
  Proof.
    induction k as [|k IH]; intros f s G; cbn [passes]; destruct (continue_ o s); eauto. unfold pass. pose proof (proj2 G) as G2. destruct (ssys s) as [H r] eqn:ES. cbn in G2.
    destruct (Req_EM_T (vdot n (mvmul n H r) (mvmul n H r)) 0); [contradiction|].
    destruct (inner_fine f s (vscale (vdot n r r / vdot n (mvmul n H r) (mvmul n H r)) r) (vdot n r r / vdot n (mvmul n H r) (mvmul n H r)) None G) as [-> |(s1 & -> & G1)]; cbn [obind]; [auto|].
    apply IH. exact G1.
  Qed.
  Lemma run_fine : forall w, 0 < o_dX o -> exists F, forall fuel, (F <= fuel)%nat -> exists r s, optimizeDogLeg E o n n fuel w = Fine (r, s).
  Proof.
    intros w DX. destruct (run_total E o n n DX w) as (F & HF). exists F. intros fuel Hf. specialize (HF fuel Hf). unfold optimizeDogLeg in *. unfold dstart in *.
    pose proof (CF w) as C. destruct (y_eval E w) as [c w1]. destruct C as (J & EJ). cbn in EJ. subst c. pose proof (GN0 w1) as B. destruct (y_build E w1) as [sys w2]. cbn in B. cbn [obind] in *.
    match goal with H : context [passes E o n n ?k fuel ?s0] |- _ => destruct (passes_fine k fuel s0) as [P|(s1 & P)] end; [split; [cbn; lra|exact B]| |]; rewrite P in *; cbn [obind] in *.
    - contradiction HF; reflexivity.
    - eauto.
  Qed.
End Complete.

(** ** marginalised variables, stationary start *)
Lemma first_continue : forall (o : dopts) W (s : dstate W), (0 < o_max o)%Z -> sit s = 0%Z -> sdX s = o_dX o + 1 -> sdJ s = o_dJ o + 1 -> continue_ o s = true.
Proof.
  intros o W s H A B C. unfold continue_. rewrite A, B, C. rewrite !andb_true_iff. split; [split|]; [apply Z.ltb_lt; auto|apply rlt_true; lra|].
  apply rlt_true. pose proof (Rle_abs (o_dJ o + 1)). lra.
Qed.
Lemma marginalised_undef : forall W (E : denv W) o n nd w c, nd <> n -> (0 < o_max o)%Z -> fst (y_eval E w) = Fin c ->
  (forall w', let sys := fst (y_build E w') in vdot n (mvmul n (fst sys) (snd sys)) (mvmul n (fst sys) (snd sys)) <> 0) -> forall fuel, optimizeDogLeg E o n nd (S fuel) w = Undef.
Proof.
  intros W E o n nd w c Hn Hm Hc HB fuel. unfold optimizeDogLeg, dstart. destruct (y_eval E w) as [c' w1]. cbn in Hc. subst c'. pose proof (HB w1) as B. destruct (y_build E w1) as [[H r] w2]. cbn in B. cbn [obind].
  assert (exists k, Z.to_nat (o_max o) = S k) as (k & ->). { exists (Z.to_nat (o_max o) - 1)%nat. lia. }
  cbn [passes]. rewrite first_continue by auto. unfold pass. cbn [ssys]. destruct (Req_EM_T (vdot n (mvmul n H r) (mvmul n H r)) 0); [contradiction|]. cbn [inner]. unfold attempt, pick. cbn [sdelta sw sJ].
  destruct (Req_EM_T 0 0) as [_|N]; [|contradiction N; reflexivity]. cbn [negb]. rewrite andb_false_r. set (sd := vscale _ r). destruct (gn_step E o w2 sd) as [g w3].
  assert (negb (Nat.eqb nd n) = true) as -> by (apply negb_true_iff, Nat.eqb_neq; auto). reflexivity.
Qed.
Lemma stationary_nan : forall W (E : denv W) o n nd w c, (0 < o_max o)%Z -> fst (y_eval E w) = Fin c -> (forall w', veq n (snd (fst (y_build E w'))) (fun _ => 0)) ->
  forall fuel, optimizeDogLeg E o n nd fuel w = NotNum.
Proof.
  intros W E o n nd w c Hm Hc HB fuel. unfold optimizeDogLeg, dstart. destruct (y_eval E w) as [c' w1]. cbn in Hc. subst c'. pose proof (HB w1) as B. destruct (y_build E w1) as [[H r] w2]. cbn in B. cbn [obind].
  assert (exists k, Z.to_nat (o_max o) = S k) as (k & ->). { exists (Z.to_nat (o_max o) - 1)%nat. lia. }
  cbn [passes]. rewrite first_continue by auto. unfold pass. cbn [ssys]. destruct (Req_EM_T (vdot n (mvmul n H r) (mvmul n H r)) 0) as [|N]; [reflexivity|]. exfalso. apply N.
  assert (forall i, mvmul n H r i = 0) as Z. { intros i. unfold mvmul. change (ksum n (fun k => (H i k * r k)%K) = k0). apply ksum_zero. intros j Hj. rewrite (B j Hj). change (H i j * 0 = 0). ring. }
  unfold vdot. change (ksum n (fun i => (mvmul n H r i * mvmul n H r i)%K) = k0). apply ksum_zero. intros i Hi. rewrite Z. change (0 * 0 = 0). ring.
Qed.

(** ** the default solver is never replaced *)
Definition with_robust {W} (E : denv W) (f : W -> W) : denv W := mkDenv (y_eval E) (y_build E) (y_solve E) (y_fallback E) f (y_apply E) (y_revert E).
Section Robust.
  Context {W : Type}.
  Variable E : denv W.
  Variable o : dopts.
  Variable n nd : nat.
  Variable f : W -> W.
  Hypothesis HF : (0 <= o_fails o)%Z.
  Lemma robust_gn : forall w sd, gn_step (with_robust E f) o w sd = gn_step E o w sd.
  Proof.
    intros w sd. unfold gn_step. cbn. destruct (y_solve E w) as [[[] g] w1]; auto. destruct (y_fallback E w1) as [[ok2 g2] w2].
    assert ((0 >? o_fails o)%Z = false) as ->; auto. rewrite Z.gtb_ltb. apply Z.ltb_ge. auto.
  Qed.
  Lemma robust_attempt : forall s sd sdn scl gn, attempt (with_robust E f) o n nd s sd sdn scl gn = attempt E o n nd s sd sdn scl gn.
  Proof. intros. unfold attempt, pick. rewrite robust_gn. reflexivity. Qed.
  Lemma robust_inner : forall k s sd sdn scl gn, inner (with_robust E f) o n nd k s sd sdn scl gn = inner E o n nd k s sd sdn scl gn.
  Proof.
    induction k as [|k IH]; intros; [reflexivity|]. cbn [inner]. rewrite robust_attempt. destruct (attempt E o n nd s sd sdn scl gn) as [[[s1 g1] rho]| | |]; cbn [obind]; auto.
    destruct (xlt rho 0 && rlt (o_dX o) (sdelta s1)); auto.
  Qed.
  Lemma robust_run : forall fuel w, optimizeDogLeg (with_robust E f) o n nd fuel w = optimizeDogLeg E o n nd fuel w.
  Proof.
    intros. unfold optimizeDogLeg. assert (dstart (with_robust E f) o w = dstart E o w) as -> by reflexivity. destruct (dstart E o w) as [s0| | |]; cbn [obind]; auto.
    assert (forall k s, passes (with_robust E f) o n nd k fuel s = passes E o n nd k fuel s) as ->; [|reflexivity].
    induction k as [|k IH]; intros s; cbn [passes]; [reflexivity|]. destruct (continue_ o s); auto. unfold pass. destruct (ssys s) as [H r]. destruct (Req_EM_T _ 0); [reflexivity|]. rewrite robust_inner.
    destruct (inner E o n nd fuel s _ _ _ None); cbn [obind]; auto.
  Qed.
End Robust.

(** ** one variable *)
(* the variable, its saved value *)
Definition toyW := (R * R)%type.
Definition c1 (x : R) : vec R := fun _ => x.
Definition toyE (cost : R -> R) (grad : R -> R) : denv toyW := mkDenv
  (fun w => (Fin (cost (fst w)), w)) (fun w => ((fun _ _ => 1), c1 (grad (fst w)), w)) (fun w => (true, c1 (grad (fst w)), w)) (fun w => (true, c1 (grad (fst w)), w))
  (fun w => w) (fun w dx => (Rabs (dx O), (fst w + dx O, fst w))) (fun w => (snd w, snd w)).
Lemma toyE_faithful : forall cost grad, faithfulD (toyE cost grad) fst snd (fun x => Fin (cost x)) (fun x => ((fun _ _ => 1), c1 (grad x))) (fun x g => g = c1 (grad x)).
Proof. intros. constructor; cbn; auto. Qed.
Lemma dot1 : forall u v : vec R, vdot 1 u v = u O * v O.
Proof. intros. unfold vdot. cbn. lra. Qed.
Lemma mv1 : forall H (r : vec R) i, mvmul 1 H r i = H i O * r O.
Proof. intros. unfold mvmul. cbn. lra. Qed.
Lemma norm1 : forall v : vec R, norm 1 v = Rabs (v O).
Proof. intros. unfold norm. rewrite dot1. apply sqrt_Rsqr_abs. Qed.
Lemma toy_grad : forall cost grad, (forall x, grad x <> 0) -> forall w : toyW, let sys := fst (y_build (toyE cost grad) w) in
  vdot 1 (mvmul 1 (fst sys) (snd sys)) (mvmul 1 (fst sys) (snd sys)) <> 0.
Proof.
  intros cost grad G w. cbn [toyE y_build fst snd]. rewrite dot1, !mv1. unfold c1. intros H. apply (G (fst w)). apply Rmult_integral in H. lra.
Qed.

(** the Cauchy point of the model r h - h H h / 2 with H = 1/10, r = 1 is 10; the code takes 100, where the model is worse than without a step *)
Lemma not_cauchy : let H : mat R := fun _ _ => 1 / 10 in let r := c1 1 in let gain := fun h : vec R => 2 * vdot 1 r h - vdot 1 h (mvmul 1 H h) in
  (forall h, gain h <= gain (c1 10)) /\ gain (c1 10) = 10 /\ sd_of 1 (H, r) O = 100 /\ gain (sd_of 1 (H, r)) = -800.
Proof.
  intros H r gain. assert (sd_of 1 (H, r) O = 100) as S. { unfold sd_of, vscale. cbn [fst snd]. rewrite !dot1, !mv1. unfold H, r, c1. change (1 * 1 / (1 / 10 * 1 * (1 / 10 * 1)) * 1 = 100). field. }
  assert (forall h, gain h = 2 * h O - h O * h O / 10) as Gh. { intros h. unfold gain. rewrite !dot1, !mv1. unfold H, r, c1. field. }
  split; [|split; [|split]].
  - intros h. rewrite !Gh. unfold c1. pose proof (Rle_0_sqr (h O - 10)) as Q. unfold Rsqr in Q. lra.
  - rewrite Gh. unfold c1. field.
  - exact S.
  - rewrite Gh, S. field.
Qed.

(** ** a linear problem: cost x^2 + 99 with error terms (x, constant); the Gauss-Newton step from 1 reaches the minimum, as the model predicts *)
Definition linE := toyE (fun x => x * x + 99) (fun x => - x).
Definition linO := mkDopts (1 / 100) (1 / 100) 1 0.
Lemma linear_ratio : exists r s t, optimizeDogLeg linE linO 1 1 1 (1, 0) = Fine (r, s) /\ slog s = [t] /\ t_kept t = true /\ t_J t = 100 /\ t_cost t = Fin 99 /\ t_L0 t = 100 /\
  2 * vdot 1 (snd (t_sys t)) (t_dx t) - vdot 1 (t_dx t) (mvmul 1 (fst (t_sys t)) (t_dx t)) = 1 /\ t_delta t = 1 /\ sdelta s = 1 / 2.
Proof.
  unfold optimizeDogLeg, dstart. cbn [linE toyE y_eval y_build fst snd obind linO o_max o_dX o_dJ]. change (Z.to_nat 1) with 1%nat. cbn [passes]. rewrite first_continue by (cbn; auto; lia).
  unfold pass. cbn [ssys]. set (H := fun _ _ : nat => 1). set (r := c1 (- (1))).
  assert (vdot 1 (mvmul 1 H r) (mvmul 1 H r) = 1) as D1. { rewrite dot1, !mv1. unfold H, r, c1. lra. }
  rewrite D1. destruct (Req_EM_T 1 0) as [|_]; [lra|]. assert (vdot 1 r r = 1) as D2. { rewrite dot1. unfold r, c1. lra. }
  rewrite D2. set (sd := vscale (1 / 1) r). assert (sd O = -1) as S0. { unfold sd, vscale, r, c1. change (1 / 1 * - (1) = -1). field. }
  cbn [inner]. unfold attempt, pick. cbn [sdelta sw sJ]. destruct (Req_EM_T 0 0) as [_|N]; [|contradiction N; reflexivity]. cbn [negb]. rewrite andb_false_r.
  unfold gn_step. change (y_solve linE (1, 0)) with (true, r, ((1, 0) : toyW)). change (negb (Nat.eqb 1 1)) with false. cbv beta iota.
  rewrite !norm1. assert (Rabs (r O) = 1) as N1. { unfold r, c1. rewrite Rabs_left; lra. }
  assert (Rabs (vadd sd (vscale (1 / 2) (vsub r sd)) O) = 1) as N2.
  { change (Rabs (sd O + 1 / 2 * (r O - sd O)) = 1). rewrite S0. unfold r, c1. rewrite Rabs_left; lra. }
  rewrite N1, N2. assert (rle 1 1 = true) as -> by (apply rle_true; lra). cbn [obind linE toyE y_apply fst snd y_eval y_build sp].
  assert (r O = -1) as R0 by (unfold r, c1; lra).
  assert (ratio (1 * 1 + 99) (Fin ((1 + r O) * (1 + r O) + 99)) (1 * 1 + 99) = Fin (1 / 100)) as RR.
  { unfold ratio, xdivr, xsub, xdiv. rewrite R0. destruct (Req_EM_T (1 * 1 + 99) 0); [lra|]. f_equal. field. }
  rewrite RR. assert (xgt (Fin (1 / 100)) 0 = true) as -> by (cbn; apply rlt_true; lra).
  assert (rlt ((1 + r O) * (1 + r O) + 99) (1 * 1 + 99) = true) as -> by (apply rlt_true; rewrite R0; lra).
  cbn [obind]. assert (xlt (Fin (1 / 100)) 0 = false) as X0 by (cbn; apply rlt_false; lra). try rewrite X0. cbn [andb obind].
  unfold continue_. cbn [sit o_max]. change (0 + 1 <? 1)%Z with false. cbn [andb].
  eexists _, _, _. split; [cbn; reflexivity|]. cbn. split; [reflexivity|]. cbn. split; [reflexivity|]. split; [lra|]. split; [f_equal; rewrite R0; lra|]. split; [lra|].
  split; [rewrite R0; unfold H; lra|]. split; [reflexivity|]. unfold new_delta.
  assert (xgt (Fin (1 / 100)) (3 / 4) = false) as -> by (cbn; apply rlt_false; lra). assert (xgt (Fin (1 / 100)) 0 = true) as -> by (cbn; apply rlt_true; lra).
  assert (xlt (Fin (1 / 100)) (1 / 4) = true) as -> by (cbn; apply rlt_true; lra). reflexivity.
Qed.

(** ** a negative convergenceDeltaX: the inner loop does not end at a local minimum *)
Definition minE := toyE (fun x => 1 + x * x) (fun _ => -1).
Definition minO := mkDopts 0 (-1) 5 0.
Lemma min_attempt : forall (s : dstate toyW) gn, fst (sw s) = 0 -> sJ s = 1 -> sp s = 1 -> 0 < sdelta s <= 1 -> exists s1 rho,
  attempt minE minO 1 1 s (c1 (-1)) (norm 1 (c1 (-1))) 1 gn = Fine (s1, gn, rho) /\ xlt rho 0 = true /\ fst (sw s1) = 0 /\ sJ s1 = 1 /\ sp s1 = 1 /\ 0 < sdelta s1 <= 1.
Proof.
  intros s gn Hx HJ Hp Hd. unfold attempt, pick. assert (norm 1 (c1 (-1)) = 1) as -> by (rewrite norm1; unfold c1; rewrite Rabs_left; lra).
  assert (rle (sdelta s) 1 = true) as -> by (apply rle_true; lra). destruct (Req_EM_T (sdelta s) 0); [lra|]. cbn [negb andb obind minE toyE y_apply y_eval y_revert fst snd]. rewrite Hx, Hp.
  assert (vscale (sdelta s / 1) (c1 (-1)) O = - sdelta s) as V. { change (sdelta s / 1 * -1 = - sdelta s). field. }
  rewrite V. set (L0 := sdelta s * (2 * 1 - sdelta s) / (2 * 1)). assert (0 < L0) as HL. { unfold L0. apply Rdiv_lt_0_compat; [apply Rmult_lt_0_compat; lra|lra]. }
  assert (ratio 1 (Fin (1 + (0 + - sdelta s) * (0 + - sdelta s))) L0 = Fin ((1 - (1 + (0 + - sdelta s) * (0 + - sdelta s))) / L0)) as RR. { unfold ratio, xdivr, xsub, xdiv. destruct (Req_EM_T L0 0); [lra|reflexivity]. }
  rewrite RR. set (q := (1 - (1 + (0 + - sdelta s) * (0 + - sdelta s))) / L0) in *.
  assert (q < 0) as Q. { unfold q. assert (0 < sdelta s * sdelta s) by (apply Rmult_lt_0_compat; lra). assert (0 < / L0) by (apply Rinv_0_lt_compat; auto).
    replace ((1 - (1 + (0 + - sdelta s) * (0 + - sdelta s))) / L0) with (- ((sdelta s * sdelta s) * / L0)) by (field; lra). pose proof (Rmult_lt_0_compat _ _ H H0). lra. }
  assert (xgt (Fin q) 0 = false) as G by (cbn; apply rlt_false; lra). rewrite G. eexists _, _. split; [reflexivity|]. split; [cbn; apply rlt_true; auto|]. cbn [sw fst snd sJ sp sdelta].
  assert (rlt (1 + 0 * 0) 1 = false) as -> by (apply rlt_false; lra). split; [lra|]. split; [auto|]. split; [auto|]. unfold new_delta.
  assert (xgt (Fin q) (3 / 4) = false) as -> by (cbn; apply rlt_false; lra). rewrite G. assert (xle (Fin q) 0 = true) as -> by (cbn; apply rle_true; lra). cbn. lra.
Qed.
Lemma min_inner : forall fuel (s : dstate toyW) gn, fst (sw s) = 0 -> sJ s = 1 -> sp s = 1 -> 0 < sdelta s <= 1 -> inner minE minO 1 1 fuel s (c1 (-1)) (norm 1 (c1 (-1))) 1 gn = NoFuel.
Proof.
  induction fuel as [|f IH]; intros s gn A B C D; [reflexivity|]. cbn [inner]. destruct (min_attempt s gn A B C D) as (s1 & rho & -> & X & A1 & B1 & C1 & D1). cbn [obind]. rewrite X.
  assert (rlt (o_dX minO) (sdelta s1) = true) as -> by (apply rlt_true; cbn; lra). cbn [andb]. apply IH; auto.
Qed.

Lemma min_never : forall fuel, optimizeDogLeg minE minO 1 1 fuel (0, 0) = NoFuel.
Proof.
  intros fuel. unfold optimizeDogLeg, dstart. cbn [minE toyE y_eval y_build fst snd obind minO o_max o_dX o_dJ]. change (Z.to_nat 5) with 5%nat. cbn [passes]. rewrite first_continue by (cbn; auto; lia).
  unfold pass. cbn [ssys]. set (H := fun _ _ : nat => 1).
  assert (vdot 1 (mvmul 1 H (c1 (-1))) (mvmul 1 H (c1 (-1))) = 1) as D1. { rewrite dot1, !mv1. unfold H, c1. lra. }
  rewrite D1. destruct (Req_EM_T 1 0) as [|_]; [lra|]. assert (vdot 1 (c1 (-1)) (c1 (-1)) = 1) as D2. { rewrite dot1. unfold c1. lra. }
  rewrite D2. assert (1 / 1 = 1) as -> by field. set (sd := vscale 1 (c1 (-1))).
  assert (forall A (x : out A) f, x = NoFuel -> obind (obind (obind x f) (passes minE minO 1 1 4 fuel)) (fun s => Fine (mkDreport (1 + 0 * 0) (sJ s) (sit s) (sdX s) (sdJ s), s)) = NoFuel) as K by (intros A x f ->; reflexivity).
  apply K. clear K.
  assert (sd = c1 (-1)) as ->. { apply FunctionalExtensionality.functional_extensionality. intros i. change (1 * -1 = -1). lra. }
  destruct fuel as [|f]; [reflexivity|]. cbn [inner]. unfold attempt, pick. cbn [sdelta sw sJ]. destruct (Req_EM_T 0 0) as [_|N]; [|contradiction N; reflexivity]. cbn [negb]. rewrite andb_false_r.
  unfold gn_step. change (y_solve minE (0, 0)) with (true, c1 (-1), ((0, 0) : toyW)). change (negb (Nat.eqb 1 1)) with false. cbv beta iota.
  assert (norm 1 (c1 (-1)) = 1) as N1. { rewrite norm1. unfold c1. rewrite Rabs_left; lra. }
  assert (norm 1 (vadd (c1 (-1)) (vscale (1 / 2) (vsub (c1 (-1)) (c1 (-1))))) = 1) as N2.
  { rewrite norm1. change (Rabs (-1 + 1 / 2 * (-1 - -1)) = 1). rewrite Rabs_left; lra. }
  rewrite N1, N2. assert (rle 1 1 = true) as -> by (apply rle_true; lra). cbn [obind minE toyE y_apply fst snd y_eval y_revert sp]. change (c1 (-1) O) with (-1).
  assert (ratio (1 + 0 * 0) (Fin (1 + (0 + -1) * (0 + -1))) (1 + 0 * 0) = Fin (-1)) as RR.
  { unfold ratio, xdivr, xsub, xdiv. destruct (Req_EM_T (1 + 0 * 0) 0); [lra|]. f_equal. field. }
  rewrite RR. assert (xgt (Fin (-1)) 0 = false) as G by (cbn; apply rlt_false; lra). rewrite G. cbn [obind].
  assert (xlt (Fin (-1)) 0 = true) as -> by (cbn; apply rlt_true; lra).
  assert (new_delta 1 (Fin (-1)) 1 TGN (c1 (-1)) (Some (c1 (-1))) = 1 / 2) as ND.
  { unfold new_delta. assert (xgt (Fin (-1)) (3 / 4) = false) as -> by (cbn; apply rlt_false; lra). rewrite G. assert (xle (Fin (-1)) 0 = true) as -> by (cbn; apply rle_true; lra). cbn [andb]. rewrite N1. reflexivity. }
  cbn [sdelta]. rewrite ND. assert (rlt (o_dX minO) (1 / 2) = true) as -> by (apply rlt_true; cbn; lra). cbn [andb].
  assert (rlt (1 + 0 * 0) (1 + 0 * 0) = false) as -> by (apply rlt_false; lra). match goal with |- inner _ _ _ _ _ ?s _ _ _ ?gn = _ => pose proof (min_inner f s gn) as M end. rewrite N1 in M. apply M; cbn; lra.
Qed.
Lemma minO_neg : o_dX minO < 0.
Proof. cbn. lra. Qed.
