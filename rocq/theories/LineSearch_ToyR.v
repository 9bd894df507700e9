(** * A search in exact arithmetic: error (x-3)^2 from 0 along direction 1 *)
From Coq Require Import ZArith Reals Lra List Bool.
From Verif Require Import Lib_Res Lib_Num LineSearch_Model LineSearch_Spec LineSearch_Proofs LineSearch_ProofsR.
Open Scope R_scope.

Definition parR_e (x : R) : R := (x - 3) * (x - 3).
Definition parR_d (x : R) : R := 2 * (x - 3).
Definition parR_o : lsoptions R := mkLsOpt (1 / 10000) (9 / 10) 50 (1 / 100000000) (1 / 100000000000000) 1 30 10 10.
(* the search continues a previous one whose error was 9 + 300/101 *)
Definition parR_start : lstate R R R := mkLS (parR_d 0) 0 (parR_e 0) (9 + 300 / 101) (parR_d 0) false false 0.

Ltac lits := repeat rewrite lit_R in *; cbn [nlit R_num nadd nsub nmul ndiv nopp nabs nlt nle neq nnan IZR IPR IPR_2] in *.
Ltac rdec := repeat match goal with
  | |- context [Rltb ?a ?b] => first [rewrite (proj2 (Rltb_true a b)) by lra | rewrite (proj2 (Rltb_false a b)) by lra]
  | |- context [Rleb ?a ?b] => first [rewrite (proj2 (Rleb_true a b)) by lra | rewrite (proj2 (Rleb_false a b)) by lra]
  | |- context [Reqb ?a ?b] => first [rewrite (proj2 (Reqb_true a b)) by lra | rewrite (proj2 (Reqb_false a b)) by lra] end.

Lemma parR_additive : additive Rplus.
Proof. split; intros; lra. Qed.
Lemma parR_ready : ready parR_e parR_d (fun g => g) parR_start.
Proof. unfold ready, current. cbn. repeat split; auto. field. Qed.
Lemma parR_check : check_ls parR_o = true.
Proof. unfold check_ls, parR_o; cbn [c1 c2 maxStep minStep xtol initStep nWolfe1 nWolfe2 nZoom]. rewrite lit_R. cbn [nle nlt R_num]. rdec. reflexivity. Qed.

Definition parR_end (s : R) : lstate R R R := mkLS (parR_d s) s (parR_e s) (parR_e 0) (parR_d s) false false s.

Lemma parR_first : first_step parR_o (maxStep parR_o) parR_start = 1.
Proof.
  unfold first_step, parR_o, parR_start, smin; cbn [l_errorOld l_derror l_error maxStep initStep]. rewrite !lit_R.
  cbn [nnan neq nlt nmul ndiv nsub nlit R_num negb andb]. unfold parR_e, parR_d.
  rewrite (proj2 (Reqb_false (2 * (0 - 3)) 0)) by lra. cbn [negb].
  replace (101 / 100 * 2 * ((0 - 3) * (0 - 3) - (9 + 300 / 101)) / (2 * (0 - 3))) with 1 by field.
  cbv zeta. rdec. reflexivity.
Qed.

Definition parR_ds : dcsrch R :=
  mkDs (mkDc 0 (parR_e 0) (parR_d 0) 0 (parR_e 0) (parR_d 0) 1 false) RUNNING 1 (1 / 100000000000000) (1 / 100000000) 50 (parR_e 0)
       (1 / 10000 * parR_d 0) (- (9 / 10) * parR_d 0) 0 (1 + 4 * 1) (50 - 1 / 100000000) ((50 - 1 / 100000000) * 2).

Lemma parR_accept : exists s, updateStepLength parR_ds (parR_e 1) (parR_d 1) = (1, s) /\ s_status s = CONVERGED.
Proof.
  unfold updateStepLength. cbn [s_stage parR_ds].
  assert (T : snd (dcsrch_test parR_ds (parR_e 1) (parR_d 1)) = CONVERGED).
  { unfold dcsrch_test. cbn [snd s_finit s_gtest s_neg s_dc stp parR_ds]. cbn [nle nabs nadd nmul R_num].
    unfold parR_e, parR_d. rewrite (Rabs_left (2 * (1 - 3))) by lra. rdec. reflexivity. }
  destruct (dcsrch_test parR_ds (parR_e 1) (parR_d 1)) as [stage st]. cbn [snd] in T. subst st. cbv zeta. eexists. split; reflexivity.
Qed.

Lemma loop_running : forall (eo go : R -> R) (sl : R -> R) mv n s (l : lstate R R R) st s', l_eOut l = false -> l_dOut l = false ->
  updateStepLength s (l_error l) (l_derror l) = (st, s') -> s_status s' = RUNNING ->
  wolfe1_loop eo go sl mv (S n) s l = wolfe1_loop eo go sl mv n s' (updateErrorDerivative go sl (updateError eo (applyStateUpdate mv st l))).
Proof. intros eo go sl mv n s l st s' E D U S. cbn [wolfe1_loop]. unfold getError, getErrorDerivative. rewrite E, D. cbn [bind]. rewrite U, S. reflexivity. Qed.
Lemma loop_converged : forall (eo go : R -> R) (sl : R -> R) mv n s (l : lstate R R R) st s', l_eOut l = false -> l_dOut l = false ->
  updateStepLength s (l_error l) (l_derror l) = (st, s') -> s_status s' = CONVERGED ->
  wolfe1_loop eo go sl mv (S n) s l = Ok (true, n, l).
Proof. intros eo go sl mv n s l st s' E D U S. cbn [wolfe1_loop]. unfold getError, getErrorDerivative. rewrite E, D. cbn [bind]. rewrite U, S. reflexivity. Qed.

Lemma parR_move : updateErrorDerivative parR_d (fun g => g) (updateError parR_e (applyStateUpdate Rplus 1
  (mkLS (parR_d 0) 0 (parR_e 0) (parR_e 0) (parR_d 0) false false 0))) = parR_end 1.
Proof.
  unfold applyStateUpdate. cbn [l_step neq nsub R_num]. rewrite lit_R. rewrite (proj2 (Reqb_false (1 - 0) 0)) by lra. cbn [negb].
  unfold updateError. cbn [l_eOut l_grad l_step l_world l_errorOld l_derror l_dOut].
  unfold updateErrorDerivative. cbn [l_eOut l_grad l_step l_world l_errorOld l_derror l_dOut l_error].
  replace (0 + (1 - 0)) with 1 by lra. reflexivity.
Qed.

Lemma parR_run : lineSearchWolfe1 parR_e parR_d (fun g => g) Rplus parR_o parR_start = Ok (true, parR_end 1).
Proof.
  unfold lineSearchWolfe1. rewrite parR_first. unfold getError, getErrorDerivative, parR_start, remember.
  cbn [l_eOut l_dOut l_error l_derror bind l_grad l_step l_errorOld l_world nnan R_num orb].
  unfold parR_o; cbn [minStep maxStep]. cbv zeta. cbn [nle neq R_num]. rewrite lit_R.
  rewrite (proj2 (Rleb_true (1 / 100000000) 1)) by lra. rewrite (proj2 (Rleb_true 1 50)) by lra. cbn [andb negb].
  rewrite (proj2 (Reqb_false (parR_d 0) 0)) by (unfold parR_d; lra).
  unfold dcsrch_new. cbn [nlt R_num]. rewrite !lit_R. rewrite (proj2 (Rltb_true (parR_d 0) 0)) by (unfold parR_d; lra). cbn [bind nWolfe1].
  destruct parR_accept as (s & U & S).
  erewrite loop_running; [| reflexivity | reflexivity | reflexivity | reflexivity].
  cbn [s_dc stp]. rewrite parR_move.
  erewrite loop_converged; [| reflexivity | reflexivity | exact U | exact S].
  reflexivity.
Qed.

Lemma parR_run12 : lineSearchWolfe12 parR_e parR_d (fun g => g) Rplus parR_o parR_start = Ok (true, parR_end 1).
Proof. unfold lineSearchWolfe12. rewrite parR_run. reflexivity. Qed.

(* error -x with one iteration in each search: no step satisfies the curvature condition *)
Definition slideR_o : lsoptions R := mkLsOpt (1 / 10000) (9 / 10) 50 (1 / 100000000) (1 / 100000000000000) 1 1 1 10.
Definition slideR (s : R) : lstate R R R := mkLS (-1) s (- s) 0 (-1) false false s.
Definition slideR_start : lstate R R R := mkLS (-1) 0 (- 0) 10 (-1) false false 0.
Lemma slideR_check : check_ls slideR_o = true.
Proof. unfold check_ls, slideR_o; cbn [c1 c2 maxStep minStep xtol initStep nWolfe1 nWolfe2 nZoom]. rewrite lit_R. cbn [nle nlt R_num]. rdec. reflexivity. Qed.
Lemma slideR_ready : ready Ropp (fun _ => -1) (fun g => g) slideR_start.
Proof. unfold ready, current. cbn. repeat split; auto. field. Qed.

Lemma slideR_first : forall cap, cap = 50 \/ cap = 1 -> 0 < first_step slideR_o cap slideR_start <= cap.
Proof.
  intros cap C. unfold first_step, slideR_o, slideR_start, smin; cbn [l_errorOld l_derror l_error maxStep initStep]. rewrite !lit_R.
  cbn [nnan neq nlt nmul ndiv nsub nlit R_num negb andb].
  rewrite (proj2 (Reqb_false (-1) 0)) by lra. cbn [negb]. cbv zeta.
  replace (101 / 100 * 2 * (- 0 - 10) / -1) with (202 / 10) by field.
  destruct C as [-> | ->]; rdec; lra.
Qed.

Lemma slideR_run : exists l, lineSearchWolfe12 Ropp (fun _ => -1) (fun g => g) Rplus slideR_o slideR_start = Ok (false, l) /\ 0 < l_world l.
Proof.
  unfold lineSearchWolfe12.
  assert (exists l1, lineSearchWolfe1 Ropp (fun _ => -1) (fun g => g) Rplus slideR_o slideR_start = Ok (false, l1) /\ l_eOut l1 = false /\ l_dOut l1 = false)
    as (l1 & R1 & E1 & D1).
  { unfold lineSearchWolfe1. pose proof (slideR_first 50 (or_introl eq_refl)) as F. change (maxStep slideR_o) with 50.
    cbn [getError getErrorDerivative slideR_start l_eOut l_dOut l_error l_derror bind nnan R_num orb].
    unfold getError, getErrorDerivative. cbn [slideR_start l_eOut l_dOut l_error l_derror bind nnan R_num orb].
    cbv zeta. fold slideR_start. set (st := first_step slideR_o 50 slideR_start) in *.
    assert (G1 : 1 / 100000000 <= st).
    { unfold st, first_step, slideR_o, slideR_start, smin; cbn [l_errorOld l_derror l_error maxStep initStep]. rewrite !lit_R.
      cbn [nnan neq nlt nmul ndiv nsub nlit R_num negb andb].
      rewrite (proj2 (Reqb_false (-1) 0)) by lra. cbn [negb]. cbv zeta.
      replace (101 / 100 * 2 * (- 0 - 10) / -1) with (202 / 10) by field. rdec. lra. }
    cbn [minStep slideR_o nle neq R_num]. rewrite (proj2 (Rleb_true _ _) G1), (proj2 (Rleb_true st 50)) by lra. cbn [andb negb].
    change (l_derror (remember slideR_start)) with (-1). rewrite !lit_R. rewrite (proj2 (Reqb_false (-1) 0)) by lra.
    unfold dcsrch_new. cbn [nlt R_num]. rewrite !lit_R. rewrite (proj2 (Rltb_true (-1) 0)) by lra. cbn [bind nWolfe1 slideR_o].
    erewrite loop_running; [| reflexivity | reflexivity | reflexivity | reflexivity]. cbn [wolfe1_loop bind s_dc stp Nat.eqb].
    eexists. split; [reflexivity|].
    rewrite (proj1 (proj2 (proj2 (upD_frame _ _ _)))). pose proof (upD_frame (W:=R) (fun _ : R => -1) (fun g : R => g)
      (updateError Ropp (applyStateUpdate Rplus st (remember slideR_start)))) as (_ & _ & _ & U & _).
    rewrite U, (proj1 (proj2 (proj2 (upE_frame _ _)))). auto. }
  rewrite R1. cbn [bind]. rewrite E1, D1.
  set (l0 := mkLS (l_grad l1) (lit 0) (l_error slideR_start) (l_errorOld slideR_start) (l_derror slideR_start) false false (l_world slideR_start)).
  unfold lineSearchWolfe2, getError, getErrorDerivative. cbn [l0 l_eOut l_dOut bind]. fold l0. cbn [nnan R_num orb]. cbv zeta.
  change (first_step slideR_o (initStep slideR_o) l0) with (first_step slideR_o 1 slideR_start).
  pose proof (slideR_first 1 (or_intror eq_refl)) as F. set (st := first_step slideR_o 1 slideR_start) in *.
  change (l_derror (remember l0)) with (-1). change (l_error (remember l0)) with (- 0). cbn [neq R_num].
  rewrite lit_R. rewrite (proj2 (Reqb_false (-1) 0)) by lra. rewrite (proj2 (Reqb_false st 0)) by lra.
  assert (M : updateError Ropp (applyStateUpdate Rplus st (remember l0)) = mkLS (l_grad l1) st (- st) (- 0) (-1) false true st).
  { unfold applyStateUpdate. cbn [l_step remember l0 neq nsub R_num]. rewrite lit_R. rewrite (proj2 (Reqb_false (st - 0) 0)) by lra. cbn [negb].
    unfold updateError. cbn [l_eOut l_grad l_step l_world l_errorOld l_derror l_dOut slideR_start].
    change (l_world (remember l0)) with 0. replace (0 + (st - 0)) with st by lra. reflexivity. }
  rewrite M. cbn [l_eOut l_error bind nWolfe2 slideR_o wolfe2_loop].
  cbn [c1 c2 neq nlt nadd nmul nle R_num Nat.ltb Nat.leb andb]. rewrite lit_R. rewrite (proj2 (Reqb_false st 0)) by lra. change (c1 slideR_o) with (1 / 10000). change (c2 slideR_o) with (9 / 10).
  rewrite (proj2 (Rltb_false (- 0 + 1 / 10000 * st * -1) (- st))) by lra.
  replace (Rleb (- 0) (- st) && false)%bool with false by (destruct (Rleb (- 0) (- st)); reflexivity). cbn [orb].
  unfold updateErrorDerivative. cbn [l_eOut l_grad l_step l_world l_errorOld l_derror l_dOut l_error bind].
  cbn [nabs nopp R_num]. unfold getErrorDerivative, getError; cbn [l_dOut l_derror bind]. rewrite (Rabs_left (-1)) by lra. rewrite (proj2 (Rleb_false _ _)) by lra. rewrite (proj2 (Rleb_false _ _)) by lra.
  unfold applyStateUpdate. cbn [l_step l_world l_grad l_error l_errorOld l_derror nsub R_num neq]. rewrite ?lit_R.
  rewrite (proj2 (Reqb_false (2 * st - st) 0)) by lra. cbn [negb].
  unfold updateError. cbn [l_eOut l_grad l_step l_world l_errorOld l_derror l_dOut bind l_error].
  eexists. split; [reflexivity|]. cbn [l_world]. lra.
Qed.
