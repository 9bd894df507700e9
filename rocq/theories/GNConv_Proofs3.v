(** * The line-search policy from a good first guess makes the steps of the Gauss-Newton policy *)
From Coq Require Import Reals Lra Lia Arith List Bool ZArith.
From Verif Require Import Lib_Ring Lib_Real Policy_Model Policy_Proofs Lin_Model Lin_Proofs Lin_Proofs2 Nlin_Model Nlin_Spec Nlin_Proofs GNConv_Spec GNConv_Proofs.
From Verif Require Optimizer2_Model.
Open Scope R_scope.

Section LS.
  Variables (n m : nat) (e : vec R -> vec R) (Jac : vec R -> mat R) (solver : mat R -> R -> vec R -> option (vec R)) (xs : vec R) (rho K mu Lam : R).
  Hypothesis Rg : regular n m e Jac xs rho K mu.
  Hypothesis Zr : norm m (e xs) = 0.
  Hypothesis Up : forall x v, dist n x xs <= rho -> norm m (mvmul n (Jac x) v) <= Lam * norm n v.
  Notation c := (K / (2 * sqrt mu)).
  Hypothesis Sm : (Lam + K / 2 * rho) * (c * rho) + K / 2 * rho <= sqrt mu.
  Hypothesis Sq : c * rho <= 1.
  Hypothesis So : solves n m solver.
  Variables (opt : ropt) (step : R) (reset : bool) (sc0 : R).
  Notation pg := (gn n m e Jac solver).
  Notation pl := (n_line_search (vec R) n m e Jac solver step reset sc0).

  Lemma err_bounds : forall x, dist n x xs <= rho -> norm m (e x) <= (Lam + K / 2 * rho) * dist n x xs /\ (sqrt mu - K / 2 * rho) * dist n x xs <= norm m (e x).
  Proof.
    intros x B. destruct (rg_signs _ _ _ _ _ _ _ _ Rg) as (P1 & P2 & P3). pose proof (rg_taylor _ _ _ _ _ _ _ _ Rg x B) as T. pose proof (rg_rank _ _ _ _ _ _ _ _ Rg x (vsub xs x) B) as M. pose proof (Up x (vsub xs x) B) as U.
    assert (norm n (vsub xs x) = dist n x xs) as Ds by apply norm_opp. rewrite Ds in U. rewrite <- (norm_sq n), <- (norm_sq m), Ds in M. set (dl := dist n x xs) in *. set (Jd := mvmul n (Jac x) (vsub xs x)) in *.
    set (r := vsub (vsub (e xs) (e x)) Jd) in *. assert (0 <= dl) as D0 by apply norm_pos.
    assert (veq m (e xs) (fun _ => 0)) as Ez by (apply Policy_Proofs.dot_zero; rewrite <- norm_sq, Zr; ring).
    assert (norm m (e x) <= norm m Jd + norm m r) as A1.
    { eapply Rle_trans; [|apply norm_triangle]. apply Req_le. unfold norm. f_equal.
      rewrite (vdot_ext m (vadd Jd r) (vscale (-1) (e x)) (vadd Jd r) (vscale (-1) (e x))) by (intros i Hi; unfold r, vadd, vsub, vscale; rewrite (Ez i Hi); cbn; ring). rewrite dot_scale_l, dot_scale_r. ring. }
    assert (norm m Jd <= norm m (e x) + norm m r) as A2.
    { eapply Rle_trans; [|apply norm_triangle]. apply Req_le. unfold norm. f_equal.
      rewrite (vdot_ext m (vadd (e x) r) (vscale (-1) Jd) (vadd (e x) r) (vscale (-1) Jd)) by (intros i Hi; unfold r, vadd, vsub, vscale; rewrite (Ez i Hi); cbn; ring). rewrite dot_scale_l, dot_scale_r. ring. }
    assert (sqrt mu * dl <= norm m Jd) as A3. { pose proof (sqrt_sqrt mu ltac:(lra)) as Q. pose proof (sqrt_pos mu). apply sq_le; [apply Rmult_le_pos; auto|apply norm_pos|]. replace (sqrt mu * dl * (sqrt mu * dl)) with (sqrt mu * sqrt mu * (dl * dl)) by ring. rewrite Q. exact M. }
    assert (K / 2 * (dl * dl) <= K / 2 * rho * dl) as A4. { replace (K / 2 * rho * dl) with (K / 2 * (rho * dl)) by ring. apply Rmult_le_compat_l; [lra|]. apply Rmult_le_compat_r; auto. }
    split; lra.
  Qed.

  (* Gauss-Newton steps near xs do not raise the cost *)
  Lemma descends : forall x d, dist n x xs <= rho -> eqn (vec R) n m e Jac 0 x d -> n_cost (vec R) m e (vadd x d) <= n_cost (vec R) m e x /\ dist n (vadd x d) xs <= rho.
  Proof.
    intros x d B E. destruct (rg_signs _ _ _ _ _ _ _ _ Rg) as (P1 & P2 & P3). pose proof (contract n m e Jac xs rho K mu Rg x d B E) as C. rewrite Zr in C. unfold rate in C.
    replace (K * dist n x xs / (2 * sqrt mu) + K * 0 / mu) with (c * dist n x xs) in C by (unfold Rdiv; ring). set (dl := dist n x xs) in *. assert (0 <= dl) as D0 by apply norm_pos.
    pose proof (sqrt_lt_R0 mu P3) as Qp. assert (0 <= c) as Cp by (unfold Rdiv; apply Rmult_le_pos; auto; apply Rlt_le, Rinv_0_lt_compat; lra).
    assert (c * dl <= c * rho) as C1 by (apply Rmult_le_compat_l; auto). assert (c * dl * dl <= c * rho * dl) as C2 by (apply Rmult_le_compat_r; auto).
    assert (dist n (vadd x d) xs <= rho) as B'. { assert (c * rho * dl <= 1 * dl) by (apply Rmult_le_compat_r; auto). lra. }
    split; auto. destruct (err_bounds x B) as [_ L]. destruct (err_bounds _ B') as [U _]. fold dl in L. unfold n_cost. rewrite <- !norm_sq.
    assert (norm m (e (vadd x d)) <= norm m (e x)) as G.
    { destruct (Rle_lt_dec 0 (Lam + K / 2 * rho)) as [Lp|Ln].
      - assert ((Lam + K / 2 * rho) * dist n (vadd x d) xs <= (Lam + K / 2 * rho) * (c * rho * dl)) as G1 by (apply Rmult_le_compat_l; lra).
        assert (((Lam + K / 2 * rho) * (c * rho)) * dl <= (sqrt mu - K / 2 * rho) * dl) by (apply Rmult_le_compat_r; lra). lra.
      - assert (0 <= dist n (vadd x d) xs) as D1 by apply norm_pos. pose proof (norm_pos m (e x)). assert ((Lam + K / 2 * rho) * dist n (vadd x d) xs <= 0) by nra. lra. }
    apply Rmult_le_compat; auto using norm_pos.
  Qed.

  Definition same (l : nst (vec R) pl) (g : nst (vec R) pg) : Prop :=
    n_x _ pl l = n_x _ pg g /\ n_J _ pl l = n_J _ pg g /\ n_pJ _ pl l = n_pJ _ pg g /\ n_mdx _ pl l = n_mdx _ pg g /\ n_dJ _ pl l = n_dJ _ pg g /\ n_lsf _ pl l = n_lsf _ pg g /\ n_it _ pl l = n_it _ pg g /\
    n_fail _ pl l = n_fail _ pg g /\ n_d _ pl l = n_d _ pg g /\ n_pf _ pl l = false /\ n_pf _ pg g = false /\ n_pJ _ pg g = n_cost (vec R) m e (n_x _ pg g) /\ dist n (n_x _ pg g) xs <= rho.
  Hypothesis Sw : solver_works n m e Jac solver xs rho.
  Lemma same_step : forall l g, same l g -> same (n_iteration (vec R) vadd n m e pl l) (n_iteration (vec R) vadd n m e pg g).
  Proof.
    intros l g (A1 & A2 & A3 & A4 & A5 & A6 & A7 & A8 & A9 & A10 & A11 & A12 & A13). unfold n_iteration.
    cbn [np_solve gn n_gauss_newton n_line_search np_reverts]. unfold gn_solve, ls_solve. cbn [csolve cfresh cpf]. rewrite A10. cbn [negb]. rewrite orb_true_r. rewrite A1, A9.
    destruct (n_reply (vec R) m e Jac solver (n_x _ pg g) 0 (n_d _ pg g)) as [ok d] eqn:Rp. cbn [fst snd].
    destruct ok. 2:{ exfalso. unfold n_reply in Rp. destruct (solver (Jac (n_x _ pg g)) 0 (n_rhs (vec R) m e Jac (n_x _ pg g))) eqn:Es; [discriminate|]. exact (Sw _ A13 Es). }
    apply (reply_eqn _ _ _ _ _ _ So) in Rp. destruct (descends _ _ A13 Rp) as [C1 C2].
    assert (rlt (n_pJ _ pl l - n_cost (vec R) m e (vadd (n_x _ pg g) d)) 0 = false) as -> by (apply rlt_false; rewrite A3, A12; lra).
    unfold same. cbn [n_x n_J n_pJ n_mdx n_dJ n_lsf n_it n_fail n_d n_pf]. rewrite A3, A6, A7, A8, A11. repeat split; auto.
  Qed.
  Lemma same_continue : forall l g, same l g -> n_continue _ pl opt l = n_continue _ pg opt g.
  Proof. intros l g (A1 & A2 & A3 & A4 & A5 & A6 & A7 & A8 & _). unfold n_continue. rewrite A4, A5, A6, A7, A8. reflexivity. Qed.
  Lemma same_loop : forall f l g g', same l g -> n_loop (vec R) vadd n m e pg opt f g = Some g' -> exists l', n_loop (vec R) vadd n m e pl opt f l = Some l' /\ same l' g'.
  Proof.
    induction f as [|f IH]; intros l g g' S L; cbn [n_loop] in *; rewrite (same_continue l g S); destruct (n_continue _ pg opt g); try discriminate.
    - injection L as <-. eauto.
    - eapply IH; [|exact L]. apply same_step; auto.
    - injection L as <-. eauto.
  Qed.
  Theorem ls_like_gn : forall x g, dist n x xs <= rho -> n_optimize (vec R) vadd n m e pg opt x = Some g ->
    exists l, n_optimize (vec R) vadd n m e pl opt x = Some l /\ n_x _ pl l = n_x _ pg g /\ n_it _ pl l = n_it _ pg g /\ n_fail _ pl l = n_fail _ pg g /\ n_status _ pl opt l = n_status _ pg opt g.
  Proof.
    intros x g B L. unfold n_optimize in *. assert (same (n_start (vec R) m e pl opt x) (n_start (vec R) m e pg opt x)) as S0 by (unfold same, n_start; cbn [n_x n_J n_pJ n_mdx n_dJ n_lsf n_it n_fail n_d n_pf]; repeat split; auto).
    destruct (same_loop _ _ _ _ S0 L) as (l & L1 & L2).
    exists l. split; [exact L1|]. destruct L2 as (A1 & A2 & A3 & A4 & A5 & A6 & A7 & A8 & _). unfold n_status. rewrite A1, A4, A5, A6, A7, A8. repeat split; auto.
  Qed.
End LS.
