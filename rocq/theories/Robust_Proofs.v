From Coq Require Import Arith Lia List ZArith NArith Bool Reals Lra.
From Verif Require Import Lib_Ring Lib_Real Lib_Res CCM_Model SBM_Model SBM_Spec SBM_Proofs SBM_Proofs2 LinSolve_Model LinSolve_Spec LinSolve_Proofs LinSolve_Proofs2 MEstimator_Model MEstimator_Spec MEstimator_Proofs Gain_Spec Gain_Proofs Gain_Proofs2 Gain_Proofs3 LMLive_Spec Robust_Spec.
Import ListNotations.
Local Open Scope R_scope.

(** the tangent of the loss lies above it *)
Lemma loss_below_tangent : forall m a b, tuned m -> 0 <= a -> 0 <= b -> loss m b <= loss m a + getWeight m a * (b - a).
Proof.
  intros m a b T Ha Hb. destruct (Rtotal_order a b) as [L|[->|L]]; [| lra|].
  - destruct (MVT_cor2 (loss m) (getWeight m) a b L) as (c & E & Hc); [intros c Hc; apply loss_derivative; auto; lra|]. assert (W := weight_antitone m a c T Ha ltac:(lra)). assert (getWeight m c * (b - a) <= getWeight m a * (b - a)) by (apply Rmult_le_compat_r; lra). lra.
  - destruct (MVT_cor2 (loss m) (getWeight m) b a L) as (c & E & Hc); [intros c Hc; apply loss_derivative; auto; lra|]. assert (W := weight_antitone m c a T ltac:(lra) ltac:(lra)). assert (getWeight m a * (a - b) <= getWeight m c * (a - b)) by (apply Rmult_le_compat_r; lra). lra.
Qed.
Lemma squared_nonneg : forall t u, 0 <= squared t u.
Proof.
  intros t u. assert (E : squared t u = wprod (mkLt (lt_dim t) (lt_jac t) (lt_err t) (lt_S t) 1) u u) by (unfold wprod; cbn [lt_sw lt_dim lt_S]; unfold squared; ring).
  rewrite E, <- wrow_prod. apply ksumR_nonneg. intros. nra.
Qed.
Lemma wprod_squared : forall t u, wprod t u u = lt_sw t * lt_sw t * squared t u. Proof. reflexivity. Qed.
Lemma lsumR_le : forall A (T : list A) (f g : A -> R), (forall a, In a T -> f a <= g a) -> lsum T f <= lsum T g.
Proof. intros A T f g. induction T as [|a T IH]; intros H; cbn [lsum]; kr; [lra|]. assert (f a <= g a) by (apply H; cbn; auto). assert (lsum T f <= lsum T g) by (apply IH; intros; apply H; cbn; auto). lra. Qed.
Lemma lsumR_lin : forall A (T : list A) (f g h : A -> R), lsum T (fun a => f a + (g a - h a)) = lsum T f + (lsum T g - lsum T h).
Proof. intros A T f g h. induction T as [|a T IH]; cbn [lsum]; kr; [ring|]. rewrite IH. ring. Qed.
Section Robust.
  Variables (l : list nat) (s : nat -> R) (tms : list (lterm R * mestimator)) (c x : vec R).
  Let ts := map fst tms.
  Hypothesis T : Forall (fun tm => tuned (snd tm)) tms.
  Hypothesis Wt : Forall weighted_by tms.
  Hypothesis Be : best l s ts c x.
  Lemma majorant : forall y, robust_cost l s tms y <= robust_cost l s tms no_step + (damped_cost l s ts (fun _ => 0) y - damped_cost l s ts (fun _ => 0) no_step).
  Proof.
    intros y. unfold robust_cost, damped_cost. rewrite !(zeroR (total l)) by (intros; ring). rewrite !Rplus_0_r. unfold ts. rewrite !lsum_map. rewrite <- lsumR_lin. apply lsumR_le. intros tm H.
    rewrite Forall_forall in T, Wt. specialize (T tm H). specialize (Wt tm H). destruct tm as (t, m). cbn [fst snd] in *.
    change (fun k => lt_err t k + lin_change l s t y k) with (err_after l s t y). change (fun k => lt_err t k + lin_change l s t no_step k) with (err_after l s t no_step). rewrite !wprod_squared.
    assert (E0 : squared t (err_after l s t no_step) = squared t (lt_err t)).
    { unfold squared. apply ksum_ext. intros k Hk. apply ksum_ext. intros k' Hk'. assert (Z : forall j, err_after l s t no_step j = lt_err t j).
      { intros j. unfold err_after, lin_change. transitivity (lt_err t j + 0); [|ring]. f_equal. transitivity (lsum (lt_jac t) (fun _ => 0)); [|induction (lt_jac t) as [|a q IH]; cbn [lsum]; kr; [reflexivity|rewrite IH; ring]]. apply lsum_ext. intros e He. apply zeroR. intros. unfold no_step. ring. }
      rewrite !Z. reflexivity. }
    rewrite E0. unfold weighted_by in Wt. cbn [fst snd] in Wt. rewrite Wt. assert (Q := loss_below_tangent m (squared t (lt_err t)) (squared t (err_after l s t y)) T (squared_nonneg _ _) (squared_nonneg _ _)). lra.
  Qed.
  Lemma undamp : forall y, damped_cost l s ts (fun _ => 0) y = damped_cost l s ts c y - ksum (total l) (fun p => (c p * y p) * (c p * y p)).
  Proof. intros y. unfold damped_cost. rewrite (zeroR (total l) (fun p => 0 * y p * (0 * y p))) by (intros; ring). ring. Qed.
  Lemma robust_falls : robust_cost l s tms x <= robust_cost l s tms no_step /\ (~ stationary l s ts -> robust_cost l s tms x < robust_cost l s tms no_step).
  Proof.
    assert (M := majorant x). rewrite !undamp in M. rewrite (zeroR (total l) (fun p => c p * no_step p * (c p * no_step p))) in M by (intros; unfold no_step; ring).
    assert (P : 0 <= ksum (total l) (fun p => c p * x p * (c p * x p))) by (apply ksumR_nonneg; intros; nra). destruct Be as (B1 & _ & B3). specialize (B1 no_step). split; [lra|]. intros NS. destruct (B3 NS) as (B4 & _). fold no_step in B4. lra.
  Qed.
End Robust.
Lemma block_robust : forall bsolve s l tms H A c use, layout_ok l -> represents H l l A -> Forall (lterm_ok l) (map fst tms) -> symmetric_solver bsolve -> Forall (fun tm => tuned (snd tm)) tms -> Forall weighted_by tms ->
  exists H' rhs b' sol, bc_build s (map fst tms) H = Ok (H', rhs) /\ bc_solve bsolve (mkBc H' rhs c use) = Ok (b', sol) /\
    forall x, sol = Some x -> robust_cost l s tms x <= robust_cost l s tms no_step /\ (~ stationary l s (map fst tms) -> robust_cost l s tms x < robust_cost l s tms no_step).
Proof.
  intros bsolve s l tms H A c use Lo Rp F So T W. destruct (block_best bsolve s l (map fst tms) H A c use Lo Rp F So) as (H' & rhs & b' & sol & E1 & E2 & B). exists H', rhs, b', sol. split; auto. split; auto.
  intros x Ex. exact (robust_falls l s tms _ x T W (B x Ex)).
Qed.
Lemma sparse_robust : forall csolve l tms e0 c use m, buildable l (map fst tms) m -> length c = total l -> aat_solver csolve -> Forall (fun tm => tuned (snd tm)) tms -> Forall weighted_by tms ->
  exists x sol, sc_build l (map fst tms) (eval_errors (map fst tms) 0 e0) c use m = Ok x /\ sc_solve csolve x = Ok (x, sol) /\
    forall dx, sol = Some dx -> robust_cost l (fun _ => 1) tms dx <= robust_cost l (fun _ => 1) tms no_step /\ (~ stationary l (fun _ => 1) (map fst tms) -> robust_cost l (fun _ => 1) tms dx < robust_cost l (fun _ => 1) tms no_step).
Proof.
  intros csolve l tms e0 c use m B Lc So T W. destruct (sparse_best csolve l (map fst tms) e0 c use m B Lc So) as (x & sol & E1 & E2 & Be). exists x, sol. split; auto. split; auto. intros dx Ex. exact (robust_falls l (fun _ => 1) tms _ dx T W (Be dx Ex)).
Qed.
Lemma dense_robust : forall hqr garbage l tms e0 x use, layout_ok l -> Forall (lterm_ok l) (map fst tms) -> dq_rows x = jrows (map fst tms) -> dq_cols x = total l -> dq_use x = Some use ->
  solves_problem hqr (if use : bool then jrows (map fst tms) + total l else jrows (map fst tms))%nat (total l) (above_diag use (jrows (map fst tms)) (J_of l (map fst tms)) (dq_c x)) (above_zero (jrows (map fst tms)) (e_of (map fst tms))) ->
  Forall (fun tm => tuned (snd tm)) tms -> Forall weighted_by tms ->
  exists x' dx, dq_solve hqr garbage (dq_build l (map fst tms) (eval_errors (map fst tms) 0 e0) x) = Ok (x', dx) /\
    robust_cost l (fun _ => 1) tms dx <= robust_cost l (fun _ => 1) tms no_step /\ (~ stationary l (fun _ => 1) (map fst tms) -> robust_cost l (fun _ => 1) tms dx < robust_cost l (fun _ => 1) tms no_step).
Proof.
  intros hqr garbage l tms e0 x use Lo F H1 H2 H3 H4 T W. destruct (dense_best hqr garbage l (map fst tms) e0 x use Lo F H1 H2 H3 H4) as (x' & dx & E & B). exists x', dx. split; [exact E|]. exact (robust_falls l (fun _ => 1) tms _ dx T W B).
Qed.
Lemma order_kept : forall m, tuned m -> match m with NoM | Cauchy _ | Huber _ | FixedWeight _ => True | _ => False end -> reports_order m.
Proof.
  intros m T Hm a b Ha Hab. destruct m as [|u|u|u|u|u]; try contradiction; cbn [getWeight tuned] in *.
  - lra.
  - assert (E : forall z, 0 <= z -> 1 / (1 + z / u) * z = u - u * u / (u + z)) by (intros z Hz; field; split; lra). rewrite !E by lra. assert (u * u / (u + b) < u * u / (u + a)); [|lra].
    unfold Rdiv. apply Rmult_lt_compat_l; [nra|]. apply Rinv_lt_contravar; nra.
  - assert (F : forall z, u * u <= z -> u / sqrt z * z = u * sqrt z) by (intros z Hz; assert (0 < sqrt z) by (apply sqrt_lt_R0; nra); rewrite <- (sqrt_sqrt z) at 2 by nra; field; lra).
    destruct (Rlt_dec a (u * u)) as [A|A]; destruct (Rlt_dec b (u * u)) as [B|B]; try lra; rewrite ?F by lra.
    + assert (u <= sqrt b) by (rewrite <- (sqrt_square u) by lra; apply sqrt_le_1; nra). nra.
    + apply Rmult_lt_compat_l; [lra|]. apply sqrt_lt_1; nra.
  - nra.
Qed.
Lemma order_lost : forall sigma2 a b, 0 < sigma2 -> sigma2 <= a -> a < b -> getWeight (GemanMcClure sigma2) b * b < getWeight (GemanMcClure sigma2) a * a /\ loss (GemanMcClure sigma2) a < loss (GemanMcClure sigma2) b.
Proof.
  intros u a b U A B. cbn [getWeight loss]. split.
  - assert (E : forall z, 0 < z -> u / ((u + z) * (u + z)) * z = u * z / ((u + z) * (u + z))) by (intros; field; nra). rewrite !E by lra.
    apply (Rmult_lt_reg_r ((u + a) * (u + a) * ((u + b) * (u + b)))); [repeat apply Rmult_lt_0_compat; lra|].
    replace (u * b / ((u + b) * (u + b)) * ((u + a) * (u + a) * ((u + b) * (u + b)))) with (u * b * ((u + a) * (u + a))) by (field; lra).
    replace (u * a / ((u + a) * (u + a)) * ((u + a) * (u + a) * ((u + b) * (u + b)))) with (u * a * ((u + b) * (u + b))) by (field; lra).
    assert (E2 : u * a * ((u + b) * (u + b)) = u * b * ((u + a) * (u + a)) + u * ((b - a) * (a * b - u * u))) by ring. assert (0 < u * ((b - a) * (a * b - u * u))); [|lra]. apply Rmult_lt_0_compat; [lra|]. apply Rmult_lt_0_compat; [lra|]. assert (u * u <= a * a) by nra. assert (a * a < a * b) by nra. lra.
  - apply (Rmult_lt_reg_r ((u + a) * (u + b))); [nra|]. replace (a / (u + a) * ((u + a) * (u + b))) with (a * (u + b)) by (field; lra). replace (b / (u + b) * ((u + a) * (u + b))) with (b * (u + a)) by (field; lra). nra.
Qed.
