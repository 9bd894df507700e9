(** * Nonlinear least-squares problems: one number as state *)
From Coq Require Import Reals Lra Lia Arith List Bool ZArith.
From Verif Require Import Lib_Ring Lib_Real Policy_Model Policy_Spec Lin_Model Lin_Spec Lin_Proofs Lin_Proofs2 Nlin_Model Nlin_Spec Nlin_Proofs Nlin_Proofs2.
From Verif Require Optimizer2_Model.
Open Scope R_scope.

Definition mv (x : R) (d : vec R) : R := x + d 0%nat.
(* the solver of one equation *)
Definition sv (A : mat R) (lam : R) (r : vec R) : option (vec R) :=
  let h := A 0%nat 0%nat * A 0%nat 0%nat + lam * lam in if Req_EM_T h 0 then None else Some (fun _ => r 0%nat / h).
Lemma sv_solves : solves 1 1 sv.
Proof.
  intros A lam r y E p Hp. assert (p = 0%nat) by lia. subst p. unfold sv in E. destruct (Req_EM_T _ 0) as [|N]; [discriminate|]. injection E as <-.
  unfold mvmul, mmul, mtr. cbn [ksum]. cbn. field. exact N.
Qed.
(* two errors: 1 + x + x^2 and 1 + x, with their derivatives *)
Definition eq_ (x : R) : vec R := fun _ => 1 + x + x * x.
Definition jq (x : R) : mat R := fun _ _ => 1 + 2 * x.
Definition el (x : R) : vec R := fun _ => 1 + x.
Definition jl (x : R) : mat R := fun _ _ => 1.
Lemma sv_eq : forall A lam r, A 0%nat 0%nat * A 0%nat 0%nat + lam * lam <> 0 -> sv A lam r = Some (fun _ => r 0%nat / (A 0%nat 0%nat * A 0%nat 0%nat + lam * lam)).
Proof. intros A lam r N. unfold sv. destruct (Req_EM_T _ 0); congruence. Qed.
Lemma grad1 : forall e (J : R -> mat R) x, gradient 1 e J x 0%nat = J x 0%nat 0%nat * e x 0%nat.
Proof. intros e J x. unfold gradient, mvmul, mtr. cbn [ksum]. cbn. ring. Qed.
Lemma cost1 : forall e x, n_cost R 1 e x = e x 0%nat * e x 0%nat.
Proof. intros e x. unfold n_cost, vdot. cbn [ksum]. cbn. ring. Qed.
Definition topt (t : R) : ropt := mkRopt t t 10.

(* Gauss-Newton jumps from 0 to -1, where the cost is the same *)
Lemma jump : forall t, 0 < t < 1 -> exists l, n_optimize R mv 1 1 eq_ (n_gauss_newton R 1 1 eq_ jq sv) (topt t) 0 = Some l /\
  n_status R (n_gauss_newton R 1 1 eq_ jq sv) (topt t) l = Optimizer2_Model.DOBJECTIVE /\ gradient 1 eq_ jq 0 0%nat = 1 /\ gradient 1 eq_ jq (n_x R _ l) 0%nat = -1.
Proof.
  intros t T. set (po := n_gauss_newton R 1 1 eq_ jq sv). set (d := (fun _ => n_rhs R 1 eq_ jq 0 0%nat / (jq 0 0%nat 0%nat * jq 0 0%nat 0%nat + 0 * 0)) : vec R).
  assert (d 0%nat = -1) as D. { unfold d, n_rhs. change (mvmul 1 (mtr (jq 0)) (eq_ 0) 0%nat) with (gradient 1 eq_ jq 0 0%nat). rewrite grad1. unfold jq, eq_. field. }
  assert (mv 0 d = -1) as M by (unfold mv; lra).
  destruct (one_step R mv 1 1 eq_ (topt t) po ltac:(cbn; lia) ltac:(cbn; lra) 0 d (n_system R 1 1 eq_ jq 0)) as [A B].
  - cbn [np_solve po n_gauss_newton]. unfold gn_solve. cbn [csolve cfresh]. unfold n_reply. rewrite sv_eq by (unfold jq; lra). reflexivity.
  - rewrite M, !cost1. unfold eq_. lra.
  - right. rewrite M, !cost1. unfold eq_. cbn. lra.
  - eexists. split; [exact A|]. split.
    + rewrite B. cbn [maxabs]. rewrite D, Rabs_left by lra. rewrite Rmax_right by lra. rewrite (proj2 (rle_false _ _)) by (cbn; lra). reflexivity.
    + cbn [n_x after_one]. rewrite M, !grad1. unfold jq, eq_. split; lra.
Qed.
Definition tlm (t : R) : lmparams := mkLmParams (1 / t) 3 2 3 2.
Lemma tlm_ok : forall t, 0 < t < 1 -> lm_params_ok (tlm t).
Proof. intros t T. unfold lm_params_ok, tlm; cbn. repeat split; try lra; try lia. apply Rdiv_lt_0_compat; lra. Qed.
(* Levenberg-Marquardt with a large damping makes a short step far from the minimum and stops *)
Lemma crawl : forall t, 0 < t < 1 -> exists l, n_optimize R mv 1 1 el (n_levenberg_marquardt R 1 1 el jl sv (tlm t)) (topt t) 0 = Some l /\
  n_status R (n_levenberg_marquardt R 1 1 el jl sv (tlm t)) (topt t) l = Optimizer2_Model.DX /\ gradient 1 el jl 0 0%nat = 1 /\ 1 / 2 <= gradient 1 el jl (n_x R _ l) 0%nat.
Proof.
  intros t T. set (po := n_levenberg_marquardt R 1 1 el jl sv (tlm t)). set (h := jl 0 0%nat 0%nat * jl 0 0%nat 0%nat + 1 / t * (1 / t)). set (d := (fun _ => n_rhs R 1 el jl 0 0%nat / h) : vec R).
  assert (h = (t * t + 1) / (t * t)) as Hh by (unfold h, jl; field; lra).
  assert (0 < t * t) as T2 by nra.
  assert (0 < h) as Hp by (rewrite Hh; apply Rdiv_lt_0_compat; lra).
  assert (d 0%nat = - (t * t / (t * t + 1))) as D. { unfold d, n_rhs. change (mvmul 1 (mtr (jl 0)) (el 0) 0%nat) with (gradient 1 el jl 0 0%nat). rewrite grad1, Hh. unfold jl, el. field. split; lra. }
  assert (0 < t * t / (t * t + 1)) as U1 by (apply Rdiv_lt_0_compat; lra).
  assert (t * t / (t * t + 1) <= 1 / 2) as U2 by (apply Rmult_le_reg_r with (t * t + 1); [lra|]; unfold Rdiv at 1; rewrite Rmult_assoc, Rinv_l by lra; nra).
  assert (t * t / (t * t + 1) <= t) as U3 by (apply Rmult_le_reg_r with (t * t + 1); [lra|]; unfold Rdiv at 1; rewrite Rmult_assoc, Rinv_l by lra; nra).
  set (u := t * t / (t * t + 1)) in *. assert (mv 0 d = - u) as M by (unfold mv; lra).
  destruct (one_step R mv 1 1 el (topt t) po ltac:(cbn; lia) ltac:(cbn; lra) 0 d
    (mkLm (mkBase (n_cost R 1 el 0) (n_cost R 1 el 0) false) (Some (1 / t)) 2 (n_system R 1 1 el jl 0), Some 0)) as [A B].
  - cbn [np_solve np_start po n_levenberg_marquardt]. unfold n_lm_call, lm_builds, lm_solve. cbn [fst snd lm_base lm_start base_start base_enter bfirst cJ cpf cfresh csolve lambda mu tlm lambdaInit muInit]. unfold n_reply. rewrite sv_eq by (fold h; lra). reflexivity.
  - rewrite M, !cost1. unfold el. nra.
  - left. cbn [maxabs topt o_dx]. rewrite D, Rabs_Ropp, Rabs_pos_eq by lra. rewrite Rmax_right; lra.
  - eexists. split; [exact A|]. split.
    + rewrite B. cbn [maxabs topt o_dx]. rewrite D, Rabs_Ropp, Rabs_pos_eq by lra. rewrite Rmax_right by lra. rewrite (proj2 (rle_true _ _)) by lra. reflexivity.
    + cbn [n_x after_one]. rewrite M, !grad1. unfold jl, el. split; lra.
Qed.
(* with the limit 1 on the length of the step the same jumps end with DX *)
Definition opt1 : ropt := mkRopt 1 0 10.
Lemma jump_dx : (exists l, n_optimize R mv 1 1 eq_ (n_gauss_newton R 1 1 eq_ jq sv) opt1 0 = Some l /\ n_status R (n_gauss_newton R 1 1 eq_ jq sv) opt1 l = Optimizer2_Model.DX /\ n_x R _ l = -1) /\
  forall step reset sc0, exists l, n_optimize R mv 1 1 eq_ (n_line_search R 1 1 eq_ jq sv step reset sc0) opt1 0 = Some l /\ n_status R (n_line_search R 1 1 eq_ jq sv step reset sc0) opt1 l = Optimizer2_Model.DX /\ n_x R _ l = -1.
Proof.
  set (d := (fun _ => n_rhs R 1 eq_ jq 0 0%nat / (jq 0 0%nat 0%nat * jq 0 0%nat 0%nat + 0 * 0)) : vec R).
  assert (d 0%nat = -1) as D. { unfold d, n_rhs. change (mvmul 1 (mtr (jq 0)) (eq_ 0) 0%nat) with (gradient 1 eq_ jq 0 0%nat). rewrite grad1. unfold jq, eq_. field. }
  assert (mv 0 d = -1) as M by (unfold mv; lra).
  assert (maxabs 1 d = 1) as Md by (cbn [maxabs]; rewrite D, Rabs_left by lra; rewrite Rmax_right; lra).
  assert (n_cost R 1 eq_ (mv 0 d) <= n_cost R 1 eq_ 0) as C by (rewrite M, !cost1; unfold eq_; lra).
  split; [|intros step reset sc0].
  - destruct (one_step R mv 1 1 eq_ opt1 (n_gauss_newton R 1 1 eq_ jq sv) ltac:(cbn; lia) ltac:(cbn; lra) 0 d (n_system R 1 1 eq_ jq 0)) as [A B]; auto.
    + cbn [np_solve n_gauss_newton]. unfold gn_solve. cbn [csolve cfresh]. unfold n_reply. rewrite sv_eq by (unfold jq; lra). reflexivity.
    + left. rewrite Md. cbn. lra.
    + eexists. split; [exact A|]. split; [|exact M]. rewrite B, Md. rewrite (proj2 (rle_true _ _)) by (cbn; lra). reflexivity.
  - edestruct (one_step R mv 1 1 eq_ opt1 (n_line_search R 1 1 eq_ jq sv step reset sc0) ltac:(cbn; lia) ltac:(cbn; lra) 0 d) as [A B]; auto.
    + cbn [np_solve np_start n_line_search]. unfold ls_solve. cbn [cpf csolve negb]. rewrite orb_true_r. unfold n_reply. rewrite sv_eq by (unfold jq; lra). reflexivity.
    + left. rewrite Md. cbn. lra.
    + eexists. split; [exact A|]. split; [|exact M]. rewrite B, Md. rewrite (proj2 (rle_true _ _)) by (cbn; lra). reflexivity.
Qed.
(* the minimum of 1 + x is at -1 *)
Lemma stat_case : (forall p, (p < 1)%nat -> gradient 1 el jl (-1) p = 0) /\ (exists mu, margin 1 1 (jl (-1)) mu) /\ (forall lam, sv (jl (-1)) lam (n_rhs R 1 el jl (-1)) <> None) /\
  forall d : vec R, (forall p, (p < 1)%nat -> d p = 0) -> mv (-1) d = -1.
Proof.
  split; [|split; [|split]].
  - intros p Hp. assert (p = 0%nat) by lia. subst. rewrite grad1. unfold jl, el. lra.
  - exists 1. split; [lra|]. intros v. unfold vdot, mvmul, jl. cbn [ksum]. cbn. lra.
  - intros lam. rewrite sv_eq; [discriminate|]. unfold jl. pose proof (Rle_0_sqr lam). unfold Rsqr in *. lra.
  - intros d Z. unfold mv. rewrite Z by lia. lra.
Qed.
Lemma entries_case : entries_below 1 1 jq 0 1 /\ entries_below 1 1 jl 0 1.
Proof.
  split; intros p q Hp Hq; assert (p = 0%nat) by lia; assert (q = 0%nat) by lia; subst; unfold mmul, mtr, jq, jl; cbn [ksum]; cbn; rewrite Rabs_pos_eq; lra.
Qed.
Lemma half_ok : 0 < 1 / 2 <= 1. Proof. lra. Qed.
Lemma half_in : 0 < 1 / 2 < 1. Proof. lra. Qed.
