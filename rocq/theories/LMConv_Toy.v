(** * Levenberg-Marquardt on nonlinear problems: the error 1 + x + x^2 *)
From Coq Require Import Reals Lra Lia Arith List Bool ZArith Psatz.
From Verif Require Import Lib_Ring Lib_Real Policy_Model Policy_Spec Lin_Model Nlin_Model Nlin_Spec Nlin_Toy LMConv_Spec.
Open Scope R_scope.

Lemma sv_answers : answers 1 1 sv.
Proof.
  split; [exact sv_solves|]. intros A lam r Lp. unfold sv. destruct (Req_EM_T _ 0) as [Z|]; [|discriminate]. exfalso. assert (0 < lam * lam) by nra. assert (0 <= A 0%nat 0%nat * A 0%nat 0%nat) by nra. lra.
Qed.
Lemma defaults_steady : steady lm_defaults.
Proof. unfold steady, lm_params_ok. cbn. split; [repeat split; try lra; lia|]. split; [exists 1%nat; reflexivity|]. lra. Qed.
Lemma eq_tame : tame 1 1 mv eq_ jq 1 1 1.
Proof.
  intros x Cx. rewrite cost1 in Cx. unfold eq_ in Cx. set (u := 1 + x + x * x) in *. assert (0 < u) by (unfold u; nra). assert (u <= 1) as Hu by nra. unfold u in Hu. assert (-1 <= x <= 0) as Hx by (split; nra). clear - Hx. assert (x * x + x <= 0) as Hxx by nra. split.
  - intros p q Hp Hq. unfold mmul, mtr, jq. cbn [ksum]. cbn. match goal with |- Rabs ?a <= _ => replace a with ((1 + 2 * x) * (1 + 2 * x)) by ring end. pose proof (Rle_0_sqr (1 + 2 * x)) as Hs. unfold Rsqr in Hs. rewrite Rabs_pos_eq; lra.
  - intros d. unfold norm, vdot, vsub, mvmul, mv, eq_, jq. cbn [ksum]. cbn.
    match goal with |- sqrt ?a <= _ => replace a with (Rsqr (d 0%nat * d 0%nat)) by (unfold Rsqr; ring) end. rewrite sqrt_Rsqr by nra. lra.
Qed.
Lemma eq_start : n_cost R 1 eq_ 0 <= 1 /\ ~ nearly_stationary 1 1 eq_ jq (1 / 2) 0.
Proof.
  split; [rewrite cost1; unfold eq_; lra|]. intros H. specialize (H 0%nat ltac:(lia)). rewrite grad1 in H. unfold eq_, jq in H. rewrite Rabs_pos_eq in H; lra.
Qed.
Lemma topt_ok : 0 <= o_dx (topt (1 / 2)) /\ 0 <= o_dJ (topt (1 / 2)).
Proof. cbn. lra. Qed.
