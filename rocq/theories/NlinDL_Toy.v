(** * Nonlinear least-squares problems: a dog-leg run with one number as state *)
From Coq Require Import Reals Lra Lia Arith List Bool ZArith.
From Verif Require Import Lib_Ring Lib_Real Policy_Model Policy_Spec Policy_Proofs Policy_Proofs3 Lin_Model Lin_Proofs LinDL_Model Nlin_Model Nlin_Spec Nlin_Proofs Nlin_Proofs2 Nlin_Toy NlinDL_Model.
From Verif Require Optimizer2_Model.
Open Scope R_scope.

(* from 0 the policy jumps to -1 *)
Lemma dl_jump : exists l s, n_optimize R mv 1 1 eq_ (n_dog_leg R 1 1 eq_ jq sv dl_new) opt1 0 = Some l /\
  n_status R (n_dog_leg R 1 1 eq_ jq sv dl_new) opt1 l = Optimizer2_Model.DX /\ n_pol R _ l = Some (s, false) /\ n_x R _ l = -1.
Proof.
  set (d := (fun _ => n_rhs R 1 eq_ jq 0 0%nat / (jq 0 0%nat 0%nat * jq 0 0%nat 0%nat + 0 * 0)) : vec R).
  assert (n_rhs R 1 eq_ jq 0 0%nat = -1) as R0. { unfold n_rhs. change (mvmul 1 (mtr (jq 0)) (eq_ 0) 0%nat) with (gradient 1 eq_ jq 0 0%nat). rewrite grad1. unfold jq, eq_. field. }
  assert (d 0%nat = -1) as D. { unfold d. rewrite R0. unfold jq. field. }
  assert (mv 0 d = -1) as M by (unfold mv; lra).
  assert (maxabs 1 d = 1) as Md by (cbn [maxabs]; rewrite D, Rabs_left by lra; rewrite Rmax_right; lra).
  assert (n_cost R 1 eq_ (mv 0 d) <= n_cost R 1 eq_ 0) as C by (rewrite M, !cost1; unfold eq_; lra).
  assert (rJtJr (n_system R 1 1 eq_ jq 0) = 1) as Rj. { cbn [n_system rJtJr]. rewrite dot1. unfold mvmul. cbn [ksum]. cbn [kadd kmul k0 RRing]. rewrite R0. unfold jq. field. }
  assert (exists s, n_dl_call R 1 1 eq_ jq sv (Some (dl_start dl_new (n_cost R 1 eq_ 0), false)) (n_cost R 1 eq_ 0) false 0 (fun _ => 0) = (true, d, Some (s, false))) as (s & Es).
  { unfold n_dl_call. cbn [andb]. unfold dl_solve_on. cbv zeta. cbn [cpf cfresh csolve cJ negb andb]. rewrite Rj. destruct (Req_EM_T 1 0); [lra|]. cbn [andb].
    unfold dl_solve. cbv zeta. cbn [cpf cfresh csolve cJ negb andb base_enter dl_start d_base base_start bfirst d_delta]. rewrite Rj. destruct (Req_EM_T 1 0); [lra|].
    unfold n_reply. rewrite sv_eq by (unfold jq; lra). fold d. cbn [fst snd negb n_system rhs]. destruct (Req_EM_T 0 0); [|lra]. cbn [negb]. rewrite andb_false_r.
    set (sd := vscale _ _). assert (sd 0%nat = -1) as Sd. { unfold sd, vscale. rewrite dot1, R0. cbn. field. }
    assert (norm 1 d <= norm 1 (vadd sd (vscale (1 / 2) (vsub d sd)))) as Le. { rewrite !norm1. unfold vadd, vscale, vsub. rewrite Sd, D. cbn. rewrite !Rabs_left; lra. }
    rewrite (proj2 (rle_true _ _) Le). eexists. reflexivity. }
  destruct (one_step R mv 1 1 eq_ opt1 (n_dog_leg R 1 1 eq_ jq sv dl_new) ltac:(cbn; lia) ltac:(cbn; lra) 0 d (Some (s, false))) as [A B]; auto.
  - left. rewrite Md. cbn. lra.
  - eexists. exists s. split; [exact A|]. split; [|split; [reflexivity|exact M]]. rewrite B, Md. rewrite (proj2 (rle_true _ _)) by (cbn; lra). reflexivity.
Qed.
