From Coq Require Import Reals Lra Lia List Bool.
From Verif Require Import Lib_Ring Lib_Real Policy_Model Policy_Spec Policy_Proofs Policy_Proofs2.
Import ListNotations.
Open Scope R_scope.

(** ** the Levenberg-Marquardt policy solves the system of the current state as long as accepted steps have a positive gain *)
Lemma lm_fresh : forall n P s dx cur, lm_protocol n P s dx cur -> cur = None /\ bfirst (lm_base s) = true \/ cur = Some (lm_sys s) /\ bfirst (lm_base s) = false.
Proof.
  intros n P s dx cur H. induction H as [J sys dx|s dx cur c ok dx' s' H IH F1 F2 F3 S]; [left; auto|]. right.
  unfold lm_solve in S. cbn [bfirst base_enter] in S. destruct (bfirst (lm_base s)) eqn:B.
  - injection S as <- <- <-. cbn. auto.
  - destruct IH as [[_ X]|[IH _]]; [discriminate|].
    unfold lm_update in S. destruct (cpf c) eqn:PF.
    + injection S as <- <- <-. cbn. split; auto. rewrite <- (F2 eq_refl). auto.
    + rewrite F3 in S by auto. destruct (lambda s); [destruct (rlt (1 / 10 ^ 16) r)|]; injection S as <- <- <-; cbn; auto.
Qed.

(** ** numbers in dimension one *)
Definition cv (a : R) : vec R := fun _ => a.
Lemma dot1 : forall a b : vec R, vdot 1 a b = a O * b O.
Proof. intros. unfold vdot. cbn [ksum]. change (0 + a O * b O = a O * b O). ring. Qed.
Lemma norm1 : forall a : vec R, norm 1 a = Rabs (a O).
Proof. intros. unfold norm. rewrite dot1. change (sqrt (Rsqr (a O)) = Rabs (a O)). apply sqrt_Rsqr_abs. Qed.

Ltac decide_if :=
  match goal with
  | |- context [Req_EM_T ?a ?b] => destruct (Req_EM_T a b); try (exfalso; lra)
  | |- context [Rle_dec ?a ?b] => destruct (Rle_dec a b); try (exfalso; lra)
  | |- context [Rlt_dec ?a ?b] => destruct (Rlt_dec a b); try (exfalso; lra)
  end.

Definition sys1 (g h : R) : system := mkSystem (cv g) h.

(** the policy after a first call whose linear solve failed and left [v] in its argument *)
Lemma dl_first_failed : forall v, let c1 := mkCall 5 false (sys1 1 1) (false, cv v) in
  exists s1, dl_solve 1 (dl_start dl_new 5) (cv 0) c1 = DLok false (cv 0) s1 /\
    d_gn s1 = Some (cv v) /\ d_gnn s1 = 0 /\ d_delta s1 = 0 /\ d_sdn s1 = 1 /\ d_sd s1 O = 1 /\ d_L0 s1 = 0 /\
    bfirst (d_base s1) = false /\ bJ (d_base s1) = 5 /\ bpJ (d_base s1) = 5.
Proof.
  intros v c1. unfold dl_solve. cbn. unfold rle. decide_if. decide_if. rewrite andb_false_r.
  eexists. split; [reflexivity|]. cbn [d_gn d_gnn d_delta d_sdn d_sd d_L0 d_base bfirst base_leave bJ bpJ].
  rewrite !norm1. unfold vscale. cbn. unfold cv.
  repeat split; auto; try lra; try (rewrite Rabs_right; lra).
Qed.

Lemma dl_after_failure : let c1 := mkCall 5 false (sys1 1 1) (false, cv 100) in let c2 := mkCall 5 true (sys1 1 1) (true, cv 0) in
  exists s1 s2 dx2, dl_solve 1 (dl_start dl_new 5) (cv 0) c1 = DLok false (cv 0) s1 /\
    dl_solve 1 s1 (cv 0) c2 = DLok true dx2 s2 /\ dx2 = cv 100 /\ d_delta s2 < norm 1 dx2.
Proof.
  intros c1 c2. destruct (dl_first_failed 100) as (s1 & E1 & G & Gn & D & Sn & Sd & L0 & B & J & pJ).
  assert (dl_radius 1 s1 (xdiv (get_dJ (base_enter (d_base s1) c2)) (d_L0 s1)) = 0) as R0.
  { unfold get_dJ, base_enter. cbn [c2 cpf cJ bpJ bJ]. rewrite pJ, L0. unfold xdiv. decide_if. decide_if. unfold dl_radius. cbn. auto. }
  assert (exists s2 dx2, dl_solve 1 s1 (cv 0) c2 = DLok true dx2 s2 /\ dx2 = cv 100 /\ d_delta s2 < norm 1 dx2) as (s2 & dx2 & X); [|exists s1, s2, dx2; tauto].
  unfold dl_solve. cbv zeta. rewrite R0. cbn [c2 cpf negb andb base_enter bfirst]. rewrite B, G, Gn, Sn.
  unfold rle. decide_if. decide_if. cbn [negb andb]. 
  destruct (Rle_dec 0 (norm 1 (vadd (d_sd s1) (vscale (1 / 2) (vsub (cv 100) (d_sd s1)))))) as [L|L].
  - eexists. eexists. split; [reflexivity|]. split; [reflexivity|]. cbn [d_delta].
    rewrite !norm1. unfold vadd, vscale, vsub, cv. rewrite Sd. cbn. rewrite !Rabs_right; lra.
  - exfalso. apply L. apply norm_pos.
Qed.

Lemma dl_failure_shrinks : forall n s r, dl_inv n s (d_dx s) -> xle r 0 = true -> dl_radius n s r <= d_delta s / 2.
Proof.
  intros n s r I H. unfold dl_radius.
  assert (xgt r (3 / 4) = false) as ->.
  { destruct r; cbn in *; auto; try discriminate. apply rle_true in H. apply rlt_false. lra. }
  assert (xgt r 0 = false) as ->.
  { destruct r; cbn in *; auto; try discriminate. apply rle_true in H. apply rlt_false. lra. }
  rewrite H. cbn [andb]. destruct (d_type s) eqn:T; try lra.
  destruct I as [_ _ (g & G1 & G2) _ I5]. unfold on_path in I5. rewrite T in I5. destruct I5 as [A1 A2].
  rewrite G1 in A1. injection A1 as ->. lra.
Qed.

(** a zero gradient makes the dog-leg step NaN *)
Lemma dl_zero_gradient : forall n s dx J H solve, let g := mkSystem (fun _ => 0) (vdot n (fun _ => 0) (mvmul n H (fun _ => 0))) in
  dl_solve n s dx (mkCall J false g solve) = DLNaN.
Proof.
  intros n s dx J H solve g. unfold dl_solve. cbv zeta. cbn [cpf negb andb cfresh rJtJr g].
  assert (vdot n (fun _ => 0) (mvmul n H (fun _ => 0)) = 0) as E.
  { unfold vdot. apply (@ksum_zero R RRing). intros. change (0 * mvmul n H (fun _ => 0) i = 0). ring. }
  rewrite E. destruct (Req_EM_T 0 0); auto. lra.
Qed.

Lemma ls_after_failure : forall step reset J v, let c1 := mkCall J false (sys1 1 1) (false, cv v) in let c2 := mkCall J true (sys1 1 1) (true, cv 0) in
  exists s1 s2, ls_solve step reset (ls_start J 1 (sys1 0 0)) (cv 0) c1 = (false, cv v, s1) /\
    ls_solve step reset s1 (cv v) c2 = (true, vscale step (cv v), s2).
Proof. intros. eexists. eexists. split; reflexivity. Qed.

Lemma lm_stale : exists s dx c s' ok dx', lm_protocol 1 lm_defaults s dx (Some (sys1 1 1)) /\ cpf c = false /\ cfresh c = sys1 7 7 /\
  lm_solve 1 lm_defaults s dx c = (ok, dx', s') /\ lm_sys s' = sys1 1 1.
Proof.
  exists (mkLm (mkBase 5 5 false) (Some (1 / 1000)) 2 (sys1 1 1)), (cv 1), (mkCall 5 false (sys1 7 7) (true, cv 1)).
  assert (lm_solve 1 lm_defaults (mkLm (mkBase 5 5 false) (Some (1 / 1000)) 2 (sys1 1 1)) (cv 1) (mkCall 5 false (sys1 7 7) (true, cv 1)) =
    (true, cv 1, mkLm (mkBase 5 5 false) (Some (1 / 1000 * (2 * 10))) (2 * 10) (sys1 1 1))) as S.
  { unfold lm_solve. cbn [lm_base base_enter bfirst cpf lambda mu]. unfold getLmRho. cbn [lambda]. rewrite dot1. unfold get_dJ. cbn [lm_base bpJ bJ cJ cpf].
    unfold vadd, vscale, cv. cbn [rhs sys1 lm_sys]. unfold xdiv. change kmul with Rmult. change kadd with Rplus. unfold cv. decide_if.
    cbn [base_enter bpJ bJ cJ cpf]. replace (5 - 5) with 0 by ring. unfold lm_update. cbn [xle]. unfold rle. replace (0 / (1 * (1 / 1000 * 1 + 1))) with 0 by lra. decide_if. reflexivity. }
  exists (mkLm (mkBase 5 5 false) (Some (1 / 1000 * (2 * 10))) (2 * 10) (sys1 1 1)), true, (cv 1).
  split; [|repeat split; auto].
  change (lm_protocol 1 lm_defaults (mkLm (mkBase 5 5 false) (Some (1 / 1000)) 2 (sys1 1 1)) (cv 1) (Some (cfresh (mkCall 5 false (sys1 1 1) (true, cv 1))))).
  eapply lmp_step with (s := lm_start lm_defaults 5 (sys1 0 0)) (dx := cv 0) (ok := true); [apply lmp_start|reflexivity|discriminate|discriminate|reflexivity].
Qed.

(** defaults are admissible, and a dog-leg history exists *)
Lemma lm_defaults_ok : lm_params_ok lm_defaults.
Proof. unfold lm_params_ok, lm_defaults; cbn. repeat split; try lra; lia. Qed.

Lemma gn_system_ex : forall J pf, gn_system 1 (mkCall J pf (sys1 1 1) (true, cv 1)).
Proof.
  intros J pf. assert (forall v : vec R, vdot 1 v (mvmul 1 mid v) = v O * v O) as Q.
  { intros v. rewrite dot1. unfold mvmul, mid. cbn [ksum]. cbn. ring. }
  exists mid. cbn [cfresh csolve snd rhs rJtJr sys1]. split; [|split; [|split]].
  - split; [|split].
    + intros i j Hi Hj. assert (i = O) by lia. assert (j = O) by lia. subst. reflexivity.
    + intros v. rewrite Q. apply Rle_0_sqr.
    + intros v H i Hi. assert (i = O) by lia. subst. rewrite Q in H. apply Rmult_integral in H. tauto.
  - rewrite Q. unfold cv. ring.
  - intros H. specialize (H O (Nat.lt_0_succ 0)). unfold cv in H. lra.
  - intros i Hi. apply mvmul_id; auto.
Qed.

Lemma dl_reach_ex : exists s dx, dl_reach 1 (gn_system 1) s dx /\ bfirst (d_base s) = false.
Proof.
  set (c := mkCall 100 false (sys1 1 1) (true, cv 1)).
  assert (exists s' dx', dl_solve 1 (dl_start dl_new 100) (cv 0) c = DLok true dx' s' /\ bfirst (d_base s') = false) as (s' & dx' & S & B).
  { unfold dl_solve. cbv zeta. cbn [c cpf negb andb base_enter dl_start d_base base_start bfirst d_delta cfresh csolve fst snd rJtJr sys1].
    destruct (Req_EM_T 1 0); [lra|]. destruct (Req_EM_T 0 0); [|lra]. cbn [negb]. rewrite andb_false_r.
    set (sd := vscale _ _).
    assert (norm 1 (cv 1) <= norm 1 (vadd sd (vscale (1 / 2) (vsub (cv 1) sd)))) as L.
    { assert (sd O = 1) as E. { unfold sd, vscale. rewrite dot1. cbn. unfold cv. lra. }
      rewrite !norm1. unfold vadd, vscale, vsub. rewrite E. unfold cv. cbn. rewrite !Rabs_right; lra. }
    apply rle_true in L. rewrite L. eexists. eexists. split; reflexivity. }
  exists s', dx'. split; auto. eapply dl_reach_step with (c := c); [apply dl_reach_start| | | |exact S]; auto. apply gn_system_ex.
Qed.
