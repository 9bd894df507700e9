(** * C90: a search, the first steps computed *)
From Coq Require Import Reals Lra Bool Arith.
From Verif Require Import Lib_Num Lib_Res LineSearch_Model.
From Verif Require Import Trial_Spec Trial_Proofs Trial_Proofs3.
Open Scope R_scope.

(* (x - 3)^2 from 0 with the first step 1: after the call that starts the search and the first measurement, 1 is the best step *)
Lemma search_toy : exists s0, dcsrch_new 1 (parabola 2 3 0 0) (parabola' 2 3 0) 0 10 (1 / 10000) (1 / 1000) (1 / 10) = Ok s0 /\ stx (s_dc (search (parabola 2 3 0) (parabola' 2 3) 2 s0)) = 1.
Proof.
  eexists. split. { unfold dcsrch_new. prim. rewrite (proj2 (Rltb_true _ _)) by (unfold parabola'; lra). reflexivity. }
  cbn [search]. unfold search_call at 2. cbn [updateStepLength s_stage snd s_dc stp]. unfold search_call. cbn [s_dc stp]. unfold updateStepLength. cbn [s_stage].
  set (s1 := mkDs _ _ 1%nat _ _ _ _ _ _ _ _ _ _). assert (dcsrch_test s1 (parabola 2 3 0 1) (parabola' 2 3 1) = (1%nat, RUNNING)) as ->.
  { unfold dcsrch_test, s1. cbv zeta. cbn [s_dc s_finit s_gtest s_stage s_neg s_max s_min s_stmin s_stmax s_xtol s_status stp brackt]. prim.
    rewrite (proj2 (Reqb_false 1 10)) by lra. rewrite (proj2 (Reqb_false 1 0)) by lra. cbn [andb orb].
    rewrite (proj2 (Rleb_false 0 (parabola' 2 3 1))) by (unfold parabola'; lra). rewrite andb_false_r.
    assert (Rleb (Rabs (parabola' 2 3 1)) (- (1 / 10) * parabola' 2 3 0) = false) as ->. { apply Rleb_false. unfold parabola'. rewrite Rabs_left by lra. lra. }
    rewrite andb_false_r. reflexivity. }
  cbn [snd]. match goal with |- context [dcsrch_bound ?a ?b ?r] => rewrite (proj1 (bound_same a b r)) end.
  unfold dcsrch_move. cbv zeta. cbn [s_dc s_finit s_gtest stp stx sty fx fy dx dy brackt s1]. prim.
  match goal with |- context [Rltb ?a (parabola 2 3 0 1)] => rewrite (proj2 (Rltb_false a (parabola 2 3 0 1))) by (unfold parabola, parabola'; cbn; lra) end. rewrite andb_false_r.
  unfold dcstep. cbv zeta. match goal with |- context [dcstep_new ?v ?a ?b ?c ?d] => destruct (dcstep_new v a b c d) end. prim. cbn [s1 s_dc fx stx stp dx].
  rewrite (proj2 (Rltb_false _ _)) by (unfold parabola; cbn; lra). destruct (Rltb _ 0); reflexivity.
Qed.
