(** * A run of BFGS in exact arithmetic: error (x-3)^2/4 from x = 0, two iterations *)
From Coq Require Import ZArith Reals Lra Lia List Bool.
From Verif Require Import Lib_Ring Lib_Real Lib_Res Lib_Num LineSearch_Model LineSearch_Spec LineSearch_Proofs LineSearch_ProofsR LineSearch_ToyR
  BFGS_Model BFGS_Spec BFGS_Proofs.
Import ListNotations.
Open Scope R_scope.

(* a search whose first trial satisfies both conditions takes it *)
Section First.
  Context {W G : Type}.
  Variables (errorOf : W -> R) (gradOf : W -> G) (slope : G -> R) (moveBy : W -> R -> W) (o : lsoptions R).
  Lemma first_taken : forall (l : lstate R W G) st k, l_eOut l = false -> l_dOut l = false -> l_step l = 0 ->
    l_derror l < 0 -> first_step o (maxStep o) l = st -> minStep o <= st <= maxStep o -> st <> 0 -> nWolfe1 o = S (S (S k)) ->
    let w := moveBy (l_world l) (st - 0) in
    errorOf w <= l_error l + st * (c1 o * l_derror l) -> Rabs (slope (gradOf w)) <= - c2 o * l_derror l ->
    lineSearchWolfe12 errorOf gradOf slope moveBy o l =
      Ok (true, mkLS (gradOf w) st (errorOf w) (l_error l) (slope (gradOf w)) false false w).
  Proof.
    intros l st k E1 E2 E3 D F B N K w A C. unfold lineSearchWolfe12, lineSearchWolfe1, getError, getErrorDerivative. rewrite E1, E2.
    cbn [bind nnan R_num orb]. cbv zeta. rewrite F. cbn [nle neq R_num].
    rewrite (proj2 (Rleb_true (minStep o) st)), (proj2 (Rleb_true st (maxStep o))) by lra. cbn [andb negb].
    change (l_derror (remember l)) with (l_derror l). rewrite lit_R. rewrite (proj2 (Reqb_false (l_derror l) 0)) by lra.
    unfold dcsrch_new. cbn [nlt R_num]. rewrite !lit_R. rewrite (proj2 (Rltb_true (l_derror l) 0)) by lra. cbn [bind].
    rewrite K. cbn [wolfe1_loop]. unfold getError, getErrorDerivative, remember. cbn [l_eOut l_dOut l_error l_derror]. rewrite E1, E2.
    cbn [bind updateStepLength s_stage s_dc stp s_status].
    assert (M : updateErrorDerivative gradOf slope (updateError errorOf (applyStateUpdate moveBy st
      (mkLS (l_grad l) (l_step l) (l_error l) (l_error l) (l_derror l) false false (l_world l)))) =
      mkLS (gradOf w) st (errorOf w) (l_error l) (slope (gradOf w)) false false w).
    { unfold applyStateUpdate. cbn [l_step neq nsub R_num]. rewrite E3, lit_R. rewrite (proj2 (Reqb_false (st - 0) 0)) by lra. cbn [negb].
      unfold updateError. cbn [l_eOut l_grad l_step l_world l_errorOld l_derror l_dOut].
      unfold updateErrorDerivative. cbn [l_eOut l_grad l_step l_world l_errorOld l_derror l_dOut l_error]. reflexivity. }
    rewrite M. cbn [l_eOut l_dOut l_error l_derror bind s_xtol s_min s_max s_finit s_gtest s_neg s_stmin s_stmax s_width s_width1].
    unfold dcsrch_test. cbn [s_stage s_dc stp s_status s_xtol s_min s_max s_finit s_gtest s_neg s_stmin s_stmax s_width s_width1].
    cbn [nle nabs nadd nmul nopp R_num].
    rewrite (proj2 (Rleb_true (errorOf w) _)) by lra. rewrite (proj2 (Rleb_true (Rabs _) _)) by lra. cbn [andb s_status Nat.eqb bind].
    reflexivity.
  Qed.
End First.

Definition qe (x : R) : R := (x - 3) * (x - 3) / 4.
Definition qg (x : R) : vec R := fun _ => (x - 3) / 2.
Definition qu (x : R) (d : vec R) : R := x + d 0%nat.
Definition q_o : lsoptions R := mkLsOpt (1 / 10000) (9 / 10) 1 (1 / 100000000) (1 / 100000000000000) 1 30 10 10.
Definition q_stop (l : lstate R R (vec R)) : bool := false.

Lemma q_additive : forall p, additive (shift qu p).
Proof. intros p. unfold shift, qu, vscale. split; intros; cbn; lra. Qed.
Lemma q_check : check_ls q_o = true.
Proof. unfold check_ls, q_o; cbn [c1 c2 maxStep minStep xtol initStep nWolfe1 nWolfe2 nZoom]. rewrite lit_R. cbn [nle nlt R_num]. rdec. reflexivity. Qed.

(* one iteration from x with the scalar matrix b that takes the step 1 *)
Lemma q_iter : forall (B : mat R) x eo d0 ls, B 0%nat 0%nat = ls -> x < 3 -> 1 <= ls <= 2 -> (forall e, eo = e -> e < qe x \/ qe x + ls * ((x-3)/2) * ((x-3)/2) <= e) ->
  exists l1, bfgs_iteration 1 qe qg qu q_o q_stop (mkBfgs B (qg x) (mkLS (qg x) 0 (qe x) eo d0 false false x)) =
    Ok (mkIter B (qg x) (bfgs_direction 1 B (qg x)) 1 x (x + ls * (3 - x) / 2),
        Some (mkBfgs (bfgs_update 1 B (vscale 1 (bfgs_direction 1 B (qg x))) (vsub (qg (x + ls * (3 - x) / 2)) (qg x))) (qg (x + ls * (3 - x) / 2)) l1)) /\
    l1 = mkLS (qg (x + ls * (3 - x) / 2)) 1 (qe (x + ls * (3 - x) / 2)) (qe x) (l_derror l1) false false (x + ls * (3 - x) / 2).
Proof.
  intros B x eo d0 b Hb X Bb EO. unfold bfgs_iteration, bfgs_set. cbn [bB bg bl].
  set (p := bfgs_direction 1 B (qg x)).
  assert (P0 : p 0%nat = b * (3 - x) / 2).
  { unfold p, bfgs_direction, mvmul. cbn [ksum]. rewrite Hb. unfold qg. cbn. lra. }
  assert (Sl : forall g, along 1 p g = g 0%nat * (b * (3 - x) / 2)).
  { intros g. unfold along, vdot. cbn [ksum]. rewrite P0. cbn. lra. }
  unfold setSearchDirection. cbn [l_grad l_error l_errorOld l_eOut l_world]. rewrite Sl.
  set (d := qg x 0%nat * (b * (3 - x) / 2)).
  assert (Dd : d = - (b * ((3 - x) / 2 * ((3 - x) / 2)))) by (unfold d, qg; lra).
  assert (Q : 0 < (3 - x) / 2 * ((3 - x) / 2)) by (apply Rmult_lt_0_compat; lra).
  assert (Dn : d < 0) by (rewrite Dd; nra).
  cbn [nle R_num]. rewrite lit_R. rewrite (proj2 (Rleb_true d 0)) by lra. cbn [bind].
  set (l := mkLS (qg x) 0 (qe x) eo d false false x).
  assert (F : first_step q_o (maxStep q_o) l = 1).
  { unfold first_step, q_o, l, smin; cbn [l_errorOld l_derror l_error maxStep initStep]. rewrite !lit_R.
    cbn [nnan neq nlt nmul ndiv nsub nlit R_num negb andb]. rewrite (proj2 (Reqb_false d 0)) by lra. cbn [negb]. cbv zeta.
    destruct (EO eo eq_refl) as [L|L].
    - set (v := 101 / 100 * 2 * (qe x - eo) / d). assert (E : v * d = 101 / 100 * 2 * (qe x - eo)) by (unfold v; field; lra).
      assert (V : v < 0) by (clearbody v; clear Dd; nra).
      rewrite (proj2 (Rltb_true v 1)) by lra. rewrite (proj2 (Rltb_true v 0)) by lra. reflexivity.
    - set (v := 101 / 100 * 2 * (qe x - eo) / d). assert (E : v * d = 101 / 100 * 2 * (qe x - eo)) by (unfold v; field; lra).
      assert (L2 : qe x - eo <= d) by (rewrite Dd; lra).
      assert (V : 1 <= v) by (clearbody v; clear Dd; nra).
      rewrite (proj2 (Rltb_false v 1)) by lra. rewrite (proj2 (Rltb_false 1 0)) by lra. reflexivity. }
  set (w := x + b * (3 - x) / 2).
  assert (Wq : shift qu p x (1 - 0) = w).
  { unfold shift, qu, vscale, w. rewrite P0. cbn. lra. }
  assert (T := first_taken qe qg (along 1 p) (shift qu p) q_o l 1 27 eq_refl eq_refl eq_refl Dn F).
  assert (T1 : minStep q_o <= 1 <= maxStep q_o) by (cbn; lra).
  specialize (T T1 R1_neq_R0 eq_refl). cbv zeta in T. unfold l in T at 1 2 3 4 5. cbn [l_world l_error l_derror] in T. rewrite Wq in T.
  unfold l in T. cbn [l_world l_error l_derror] in T.
  fold l in T. rewrite ?Wq, Sl in T. rewrite T; clear T.
  - cbn [bind negb orb l_step l_grad l_world q_stop]. unfold q_stop. eexists. split; [reflexivity|]. reflexivity.
  - unfold q_o. cbn [c1]. rewrite Dd. unfold w, qe. nra.
  - unfold q_o. cbn [c2]. rewrite Dd. unfold qg, w.
    replace ((x + b * (3 - x) / 2 - 3) / 2 * (b * (3 - x) / 2)) with (- ((1 - b / 2) * b * ((3 - x) / 2 * ((3 - x) / 2)))) by field.
    rewrite Rabs_Ropp, Rabs_right; nra.
Qed.

Lemma q_B1 : forall B x x', 0 < (3 - x) / 2 -> B 0%nat 0%nat = 1 -> x' = x + (3 - x) / 2 ->
  bfgs_update 1 B (vscale 1 (bfgs_direction 1 B (qg x))) (vsub (qg x') (qg x)) 0%nat 0%nat = 2.
Proof.
  intros B x x' X HB ->. set (s := vscale 1 _). set (y := vsub _ _).
  assert (S0 : s 0%nat = (3 - x) / 2). { unfold s, vscale, bfgs_direction, mvmul, qg. cbn [ksum]. rewrite HB. cbn. lra. }
  assert (Y0 : y 0%nat = (3 - x) / 2 / 2). { unfold y, vsub, qg. cbn. lra. }
  assert (V : vdot 1 y s = (3 - x) / 2 * ((3 - x) / 2) / 2). { unfold vdot. cbn [ksum]. rewrite S0, Y0. cbn. lra. }
  unfold bfgs_update, bfgs_rho. rewrite V. destruct (Req_EM_T _ 0) as [E|E]; [nra|].
  unfold madd, mmul, mtr, msub, mid, delta. cbn [ksum Nat.eqb]. rewrite S0, Y0. cbn. field. lra.
Qed.

Lemma q_run : exists its en, bfgs_loop 1 qe qg qu q_o q_stop 2 (bfgs_start qe qg 0 (qe 0 - 1) 0) = Ok (its, en) /\
  Forall (fun it => 0 <= i_alpha it /\ nonzero 1 (i_g it)) its /\ map i_from its = [0; 3 / 2] /\ map i_to its = [3 / 2; 3] /\ c2 q_o < 1.
Proof.
  unfold bfgs_start.
  destruct (q_iter mid 0 (qe 0 - 1) 0 1) as (l1 & E1 & L1); [reflexivity|lra|lra|intros e <-; left; lra|].
  replace (0 + 1 * (3 - 0) / 2) with (3 / 2) in E1, L1 by lra.
  set (B1 := bfgs_update 1 mid (vscale 1 (bfgs_direction 1 mid (qg 0))) (vsub (qg (3 / 2)) (qg 0))) in *.
  assert (HB : B1 0%nat 0%nat = 2) by (apply q_B1; [lra|reflexivity|lra]). clearbody B1.
  assert (E2 : exists l2, bfgs_iteration 1 qe qg qu q_o q_stop (mkBfgs B1 (qg (3 / 2)) l1) =
    Ok (mkIter B1 (qg (3/2)) (bfgs_direction 1 B1 (qg (3/2))) 1 (3/2) 3, l2)).
  { destruct (q_iter B1 (3 / 2) (qe 0) (l_derror l1) 2) as (l2 & E2 & _); [auto|lra|lra|intros e <-; right; unfold qe; lra|].
    (* the step length left by the first search is overwritten when the direction is set *)
    replace (3 / 2 + 2 * (3 - 3 / 2) / 2) with 3 in E2 by lra. rewrite L1. cbn [l_derror].
    eexists. etransitivity; [|exact E2]. reflexivity. }
  destruct E2 as (l2 & E2). cbn [bfgs_loop]. rewrite E1. cbn [bind fst snd]. rewrite E2. cbn [bind fst snd].
  assert (NZ : forall x, x < 3 -> nonzero 1 (qg x)) by (intros x X; exists 0%nat; split; [lia|unfold qg; lra]).
  destruct l2 as [st2|]; cbn [bind fst snd]; eexists; eexists; (split; [reflexivity|]); (split; [|split; [reflexivity|split; [reflexivity|cbn; lra]]]);
    constructor; [|constructor; [|constructor]| |constructor; [|constructor]]; cbn [i_alpha i_g]; split; try lra; apply NZ; lra.
Qed.

Lemma negative_curvature : exists (s y : vec R), vdot 1 y s <> 0 /\ positive_definite 1 mid /\ ~ positive_definite 1 (bfgs_update 1 mid s y).
Proof.
  exists (fun _ => 1), (fun _ => -1). split; [cbn; lra|]. split; [apply id_pd|]. intros P.
  assert (N : nonzero 1 (fun _ => 1)) by (exists 0%nat; split; [lia|lra]). specialize (P _ N).
  assert (V : vdot 1 (fun _ : nat => -1) (fun _ : nat => 1) = -1) by (cbn; lra).
  unfold bfgs_update, bfgs_rho in P. rewrite V in P. destruct (Req_EM_T (-1) 0); [lra|].
  unfold vdot, mvmul, madd, mmul, mtr, msub, mid, delta in P. cbn [ksum Nat.eqb] in P. cbn in P. lra.
Qed.

Lemma upd_case : 0 < vdot 2 (fun _ => 2) (fun _ => 1).
Proof. unfold vdot. cbn [ksum]. change (0 < 0 + 2 * 1 + 2 * 1). lra. Qed.
Lemma nz_case : nonzero 2 (fun _ => 3).
Proof. exists 1%nat. split; [lia|lra]. Qed.
