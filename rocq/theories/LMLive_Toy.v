(** * One design variable and one error term, used as examples next to the theorems *)
From Coq Require Import Arith Lia List ZArith NArith Bool Reals Lra.
From Verif Require Import Lib_Ring Lib_Real Lib_Res CCM_Model SBM_Model SBM_Spec SBM_Proofs SBM_Proofs2 LinSolve_Model LinSolve_Spec LinSolve_Proofs LinSolve_Proofs2 Gain_Spec Gain_Proofs Gain_Proofs2 Gain_Proofs3 Gain_Toy Policy_Model Policy_Spec Policy_Proofs LMLive_Spec LMLive_Proofs LMLive_Proofs2 LMLive_Proofs3.
From Verif Require CCM_Spec CCM_Proofs.
Import ListNotations.
Local Open Scope R_scope.

(* a solver for one unknown *)
Definition bsolve1 (H : sbm R) (b : vec R) : option (vec R) := bsolveR (fun _ => b 0%nat / SBM_Model.toDense H 0%nat 0%nat) H b.
Lemma bsolve1_ok : symmetric_solver bsolve1.
Proof. intros H l S b x Hu Sy E. exact (bsolveR_ok _ H l S b x Hu Sy E). Qed.
(* the error 1 + y + 4 y^2: the linearisation is good near zero only *)
Definition lay1 : list nat := [1]%nat.
Definition t1 : lterm R := mkLt 1 [(0%nat, mr [[1]])] (vr [1]) (mr [[1]]) 1.
Definition tas1 : list (lterm R * term_of_step) := [(t1, mkTos (fun y _ => 1 + y 0%nat + 4 * (y 0%nat * y 0%nat)) (fun q => q))].
Lemma lay1_ok : layout_ok lay1. Proof. intros [|b] H; cbn in *; lia. Qed.
Lemma t1_ok : Forall (lterm_ok lay1) [t1]. Proof. repeat constructor; cbn; auto. Qed.
Lemma fresh1_rep : represents (fresh lay1 lay1 : sbm R) lay1 lay1 (fun _ _ => 0).
Proof. destruct (fresh_good (K := R) lay1 lay1 lay1_ok lay1_ok) as (G & N). apply good_represents; auto. intros. unfold blk. rewrite N. auto. Qed.
Lemma tas1_lin : map fst tas1 = [t1] /\ Forall (linearises lay1 (fun _ => 1)) tas1.
Proof.
  split; [reflexivity|]. constructor; [|constructor]. split; cbn [fst snd lt_dim t1 ts_E ts_rho lt_err lt_sw].
  - intros k Hk. assert (k = 0%nat) as -> by lia. split; [unfold no_step, vr; cbn; ring|]. intros e He. exists (e / 4). split; [lra|]. intros r y Hr W. specialize (W 0%nat ltac:(cbn; lia)).
    assert (L : lin_change lay1 (fun _ => 1) t1 y 0 = y 0%nat) by (unfold lin_change; cbn; ring). rewrite L. unfold no_step.
    replace (1 + y 0%nat + 4 * (y 0%nat * y 0%nat) - (1 + 0 + 4 * (0 * 0)) - y 0%nat) with (4 * (y 0%nat * y 0%nat)) by ring. rewrite !Rabs_mult, (Rabs_right 4) by lra. assert (P := Rabs_pos (y 0%nat)). nra.
  - replace (1 * 1) with 1 by ring. apply derivable_pt_lim_id.
Qed.
Lemma t1_moves : ~ stationary lay1 (fun _ => 1) [t1].
Proof. intros H. specialize (H (fun _ => 1)). unfold wprod, lin_change, mmul, mtr in H. cbn in H. lra. Qed.
Definition B1 : bc R := match bc_build (fun _ => 1) [t1] (fresh lay1 lay1) with Ok (H, rh) => mkBc H rh (fun _ => 0) true | _ => mkBc (fresh lay1 lay1) (fun _ => 0) (fun _ => 0) true end.
Lemma attempt_first : exists b x, block_attempt bsolve1 B1 (1 / 1000) b x /\ x 0%nat = - (1000000 / 1000001) /\ (exists b' x', block_attempt bsolve1 b (1 / 1000 * (2 * 2)) b' x' /\ x' 0%nat = - (1000000 / 999017)).
Proof.
  eexists _, _. split; [|split].
  - unfold block_attempt. cbv -[bsolve1 Rplus Rmult Ropp IZR Rminus Rdiv]. unfold bsolve1, bsolveR. match goal with |- context [agreeR ?n ?M ?x ?b] => rewrite (agreeR_yes n M x b) end; [reflexivity|].
    intros p Hp. cbn in Hp. destruct p as [|p]; try lia. cbn. field; lra.
  - cbn. field; lra.
  - eexists _, _. split.
    + unfold block_attempt. cbv -[bsolve1 Rplus Rmult Ropp IZR Rminus Rdiv]. unfold bsolve1, bsolveR. match goal with |- context [agreeR ?n ?M ?x ?b] => rewrite (agreeR_yes n M x b) end; [reflexivity|].
      intros p Hp. cbn in Hp. destruct p as [|p]; try lia. cbn. field; lra.
    + cbn. field; lra.
Qed.
(* the first step, about -1, makes the cost 1 rise to about 16; the second one is tried *)
Lemma row1 : exists s x b, row 1 lm_defaults (bc R) (block_attempt bsolve1) (step_cost tas1) B1 1 s x b /\ step_cost tas1 no_step <= step_cost tas1 x.
Proof.
  destruct attempt_first as (b & x & A & Ex & b' & x' & A' & Ex').
  set (s0 := lm_start lm_defaults 1 (mkSystem (bc_rhs B1) 1)). set (c0 := mkCall 1 false (mkSystem (bc_rhs B1) 1) (true, x)). set (s1 := mkLm (mkBase 1 1 false) (Some (1 / 1000)) 2 (mkSystem (bc_rhs B1) 1)).
  assert (E0 : lm_solve 1 lm_defaults s0 no_step c0 = (true, x, s1)) by reflexivity.
  set (c1 := mkCall 1 true (mkSystem (bc_rhs B1) 1) (true, x')). set (s2 := mkLm (mkBase 1 1 false) (Some (1 / 1000 * (2 * 2))) (2 * 2) (mkSystem (bc_rhs B1) 1)).
  assert (E1 : lm_solve 1 lm_defaults s1 x c1 = (true, x', s2)) by reflexivity.
  exists s2, x', b'. split.
  - eapply (row_next 1 lm_defaults (bc R) (block_attempt bsolve1) (step_cost tas1) B1 0 s1 x b c1 x' s2 (1 / 1000 * (2 * 2)) b').
    + eapply (row_first 1 lm_defaults (bc R) (block_attempt bsolve1) (step_cost tas1) B1 s1 x (1 / 1000) b); [|reflexivity|reflexivity|exact A]. eapply lm_reach_step; [apply (lm_reach_start 1 lm_defaults 1 (mkSystem (bc_rhs B1) 1) no_step)| |exact E0]. intros Q. discriminate Q.
    + unfold step_cost, squared, mmul, mtr. cbn. rewrite Ex. unfold no_step. lra.
    + reflexivity.
    + exact E1.
    + reflexivity.
    + exact A'.
  - unfold step_cost, squared, mmul, mtr. cbn. rewrite Ex'. unfold no_step. lra.
Qed.

(** ** the same with the sparse and the dense solver *)
Definition csolve1 (m : ccm R) (b : vec R) : option (vec R) := match CCM_Model.toDense 0 m with Ok D => csolveR (fun _ => b 0%nat / mmul (c_cols m) D (mtr D) 0%nat 0%nat) m b | _ => None end.
Lemma csolve1_ok : aat_solver csolve1.
Proof. intros m A b x W St E. unfold csolve1 in E. destruct (CCM_Model.toDense 0 m); try discriminate. exact (csolveR_ok _ m A b x W St E). Qed.
Lemma buildable1 : buildable lay1 [t1] (construct 0 0).
Proof. split; [exact lay1_ok|]. split; [discriminate|]. split; [exact t1_ok|]. split; [cbn; lia|]. right. repeat constructor; discriminate. Qed.
Lemma first_row : forall St (attempt : St -> R -> St -> vec R -> Prop) fresh S x, attempt fresh (1 / 1000) S x -> x 0%nat = - (1000000 / 1000001) ->
  exists s, row 1 lm_defaults St attempt (step_cost tas1) fresh 0 s x S /\ step_cost tas1 no_step <= step_cost tas1 x.
Proof.
  intros St attempt fr S x A Ex. set (sy := mkSystem (bc_rhs B1) 1). exists (mkLm (mkBase 1 1 false) (Some (1 / 1000)) 2 sy). split.
  - eapply row_first; [|reflexivity|reflexivity|exact A]. eapply (lm_reach_step 1 lm_defaults (lm_start lm_defaults 1 sy) no_step (mkCall 1 false sy (true, x))); [apply lm_reach_start| |reflexivity]. intros Q. discriminate Q.
  - unfold step_cost, squared, mmul, mtr. cbn. rewrite Ex. unfold no_step. lra.
Qed.
Lemma sparse_row : exists fresh s x S, sc_build lay1 [t1] (eval_errors [t1] 0 (fun _ => 0)) [0] true (construct 0 0) = Ok fresh /\
  row 1 lm_defaults (sc R) (sparse_attempt csolve1 1) (step_cost tas1) fresh 0 s x S /\ step_cost tas1 no_step <= step_cost tas1 x.
Proof.
  destruct (sc_build lay1 [t1] (eval_errors [t1] 0 (fun _ => 0)) [0] true (construct 0 0)) as [fr| |] eqn:E; [|vm_compute in E; discriminate|vm_compute in E; discriminate].
  assert (A : exists S x, sparse_attempt csolve1 1 fr (1 / 1000) S x /\ x 0%nat = - (1000000 / 1000001)).
  { revert E. cbv -[sparse_attempt csolve1 Rplus Rmult Ropp IZR Rminus Rdiv]. intros E. injection E as <-. eexists _, _. split.
    - unfold sparse_attempt. cbv -[csolve1 Rplus Rmult Ropp IZR Rminus Rdiv]. unfold csolve1, csolveR.
      match goal with |- context [CCM_Model.toDense ?z ?m] => let D := eval cbv -[Rplus Rmult Ropp IZR Rminus Rdiv] in (CCM_Model.toDense z m) in change (CCM_Model.toDense z m) with D end. cbv iota.
      match goal with |- context [agreeR ?n ?M ?x ?b] => rewrite (agreeR_yes n M x b) end; [reflexivity|]. intros p Hp. cbn in Hp. destruct p as [|p]; try lia. cbn. field; lra.
    - cbn. field; lra. }
  destruct A as (S & x & A & Ex). destruct (first_row _ _ _ _ _ A Ex) as (s & H1 & H2). exists fr, s, x, S. split; [reflexivity|]. split; assumption.
Qed.
Definition hqr1 (rows cols : nat) (A : mat R) (b : vec R) : vec R := fun _ => ksum rows (fun r => A r 0%nat * b r) / ksum rows (fun r => A r 0%nat * A r 0%nat).
Definition D1 : dq R := mkDq (fun _ _ => 0) 1 1 (fun _ => 0) (fun _ => 0) (fun _ => 0) None.
Lemma hqr1_ok : forall lam, solves_problem hqr1 (jrows [t1] + total lay1) (total lay1) (above_diag true (jrows [t1]) (J_of lay1 [t1]) (fun _ => lam)) (above_zero (jrows [t1]) (e_of [t1])).
Proof.
  intros lam A b HA Hb p Hp. cbn in Hp. destruct p as [|p]; try lia. pose proof (HA 0%nat 0%nat ltac:(cbn; lia) ltac:(cbn; lia)) as A0. pose proof (HA 1%nat 0%nat ltac:(cbn; lia) ltac:(cbn; lia)) as A1. pose proof (Hb 0%nat ltac:(cbn; lia)) as b0. pose proof (Hb 1%nat ltac:(cbn; lia)) as b1.
  unfold hqr1. cbn [jrows map list_sum fold_right t1 lt_dim total lay1 last] in *. cbn in A0, A1, b0, b1 |- *. rewrite A0, A1, b0, b1. field. nra.
Qed.
Lemma dense_row : exists s x S, row 1 lm_defaults (dq R) (dense_attempt hqr1 (fun _ _ => 7)) (step_cost tas1) (dq_build lay1 [t1] (eval_errors [t1] 0 (fun _ => 0)) D1) 0 s x S /\ step_cost tas1 no_step <= step_cost tas1 x.
Proof.
  assert (A : exists S x, dense_attempt hqr1 (fun _ _ => 7) (dq_build lay1 [t1] (eval_errors [t1] 0 (fun _ => 0)) D1) (1 / 1000) S x /\ x 0%nat = - (1000000 / 1000001)).
  { eexists _, _. split; [reflexivity|]. unfold hqr1. cbn. field; lra. }
  destruct A as (S & x & A & Ex). destruct (first_row _ _ _ _ _ A Ex) as (s & H1 & H2). exists s, x, S. split; assumption.
Qed.

(** ** the gain ratio of a linear error term, 1 + y / 1000, with the default lambda = 1 / 1000: the step is -500, the cost falls from 1 to 1 / 4 *)
Definition t2 : lterm R := mkLt 1 [(0%nat, mr [[1 / 1000]])] (vr [1]) (mr [[1]]) 1.
Lemma t2_ok : Forall (lterm_ok lay1) [t2]. Proof. repeat constructor; cbn; auto. Qed.
Lemma gain_wrong : exists H' rh b x s c x' s' lam', bc_build (fun _ => 1) [t2] (fresh lay1 lay1) = Ok (H', rh) /\ bc_solve bsolve1 (mkBc H' rh (fun _ => 1 / 1000) true) = Ok (b, Some x) /\
  lm_reach 1 lm_defaults s x /\ bfirst (lm_base s) = false /\ lambda s = Some (1 / 1000) /\ rhs (lm_sys s) = rh /\
  cpf c = false /\ bJ (lm_base s) = damped_cost lay1 (fun _ => 1) [t2] (fun _ => 0) no_step /\ cJ c = damped_cost lay1 (fun _ => 1) [t2] (fun _ => 0) x /\ predicted lay1 (fun _ => 1) [t2] x = 3 / 4 /\
  lm_solve 1 lm_defaults s x c = (true, x', s') /\ lambda s' = Some lam' /\ 19 / 10 * (1 / 1000) < lam'.
Proof.
  destruct (bc_build (fun _ => 1) [t2] (fresh lay1 lay1)) as [(H', rh)| |] eqn:E; [|vm_compute in E; discriminate|vm_compute in E; discriminate].
  assert (Bs : exists b x, bc_solve bsolve1 (mkBc H' rh (fun _ => 1 / 1000) true) = Ok (b, Some x) /\ x 0%nat = -500 /\ rh 0%nat = - (1 / 1000)).
  { revert E. cbv -[bc_solve bsolve1 Rplus Rmult Ropp IZR Rminus Rdiv]. intros E. injection E as <- <-. eexists _, _. split; [|split].
    - cbv -[bsolve1 Rplus Rmult Ropp IZR Rminus Rdiv]. unfold bsolve1, bsolveR. match goal with |- context [agreeR ?n ?M ?x ?b] => rewrite (agreeR_yes n M x b) end; [reflexivity|].
      intros p Hp. cbn in Hp. destruct p as [|p]; try lia. cbn. field; lra.
    - cbn. field; lra.
    - cbn. field; lra. }
  destruct Bs as (b & x & Eb & Ex & Er). set (s0 := lm_start lm_defaults 1 (mkSystem rh 1)). set (s1 := mkLm (mkBase 1 1 false) (Some (1 / 1000)) 2 (mkSystem rh 1)).
  set (c0 := mkCall 1 false (mkSystem rh 1) (true, x)). assert (E0 : lm_solve 1 lm_defaults s0 no_step c0 = (true, x, s1)) by reflexivity.
  set (c1 := mkCall (1 / 4) false (mkSystem rh 1) (true, x)).
  assert (Rho : getLmRho 1 (mkLm (base_enter (lm_base s1) c1) (lambda s1) (mu s1) (lm_sys s1)) x = Fin (3 / 1002)).
  { unfold getLmRho. cbn [lambda s1 lm_base lm_sys base_enter c1 cpf cJ get_dJ bpJ bJ rhs]. assert (D : vdot 1 x (vadd (vscale (1 / 1000) x) rh) = 501 / 2).
    { unfold vdot, vadd, vscale. cbn. rewrite Ex, Er. field. }
    rewrite D. unfold xdiv, get_dJ. cbn [bpJ bJ]. destruct (Req_EM_T (501 / 2) 0); [lra|]. f_equal. unfold base_enter, c1; cbn [bpJ bJ cpf cJ]; field. }
  exists H', rh, b, x, s1, c1. destruct (lm_solve 1 lm_defaults s1 x c1) as ((ok, x'), s') eqn:Es. unfold lm_solve in Es. cbv zeta in Es. rewrite Rho in Es. cbn [bfirst base_enter lm_base s1 cpf c1] in Es. unfold lm_update in Es.
  replace (xle (Fin (3 / 1002)) 0) with false in Es by (unfold xle, rle; destruct (Rle_dec (3 / 1002) 0); auto; lra). unfold s1 at 1 in Es. cbn [lambda] in Es.
  assert (T : rlt (1 / 10 ^ 16) (1 / 1000) = true) by (apply rlt_true; apply (Rmult_lt_reg_r (10 ^ 16)); [apply pow_lt; lra|]; field_simplify; lra).
  rewrite T in Es. unfold lm_factor in Es. cbn [option_map gamma beta p lm_defaults mu fst snd csolve c1] in Es.
  assert (T2 : rlt (1 - (2 - 1) * (2 * (3 / 1002) - 1) ^ 3) (1 / 3) = false) by (apply rlt_false; cbn [pow]; lra).
  rewrite T2 in Es. injection Es as <- <- <-. eexists _, _, _. split; [reflexivity|]. split; [exact Eb|]. split.
  { eapply lm_reach_step; [apply (lm_reach_start 1 lm_defaults 1 (mkSystem rh 1) no_step)| |exact E0]. intros Q. discriminate Q. }
  split; [reflexivity|]. split; [reflexivity|]. split; [reflexivity|]. split; [reflexivity|].
  assert (C0 : damped_cost lay1 (fun _ => 1) [t2] (fun _ => 0) no_step = 1) by (unfold damped_cost, wprod, lin_change, mmul, mtr, no_step; cbn; field).
  assert (C1 : damped_cost lay1 (fun _ => 1) [t2] (fun _ => 0) x = 1 / 4) by (unfold damped_cost, wprod, lin_change, mmul, mtr; cbn; rewrite Ex; field).
  split; [rewrite C0; reflexivity|]. split; [rewrite C1; reflexivity|]. split; [unfold predicted; rewrite C0, C1; field|]. split; [reflexivity|]. split; [reflexivity|]. cbn [pow]. lra.
Qed.
