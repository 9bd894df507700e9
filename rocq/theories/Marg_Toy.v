(** * Concrete problems for the marginalizer *)
From Coq Require Import Arith Lia List ZArith Bool Reals Lra Ring Sorting.Sorted.
From Verif Require Import Lib_Ring Lib_Real Lib_Res SBM_Model SBM_Spec LinSolve_Model LinSolve_Spec Marg_Model Marg_Spec Marg_Proofs Marg_Proofs2.
Import ListNotations.
Local Open Scope nat_scope.

Definition vr (v : list R) : vec R := fun i => nth i v 0%R.
Definition mr (m : list (list R)) : mat R := fun i j => nth j (nth i m []) 0%R.
Ltac small_ksum := cbn -[Rplus Rmult Rminus Ropp Rdiv Rinv IZR]; change (Pos.to_nat 1) with 1; cbn -[Rplus Rmult Rminus Ropp Rdiv Rinv IZR].

(** J = [1 3; 2 3; 2 0], e = (1, -1, 3): two design variables, an error term for both and one for the first only *)
Definition wa : world R := mkWorld [mkMdv 7 4 9 1; mkMdv 8 (-1) (-1) 1]
  [mkMet 3 11 (mkLt 2 [(0, mr [[1]; [2]]%R); (1, mr [[3]; [3]]%R)] (vr [1; -1]%R) (mr [[1; 0]; [0; 1]]%R) 1%R); mkMet 5 12 (mkLt 1 [(0, mr [[2]]%R)] (vr [3%R]) (mr [[1%R]]) 1%R)].
Definition Qa : mat R := mr [[1/3; 2/3; 2/3]; [2/3; 1/3; -2/3]; [2/3; -2/3; 1/3]]%R.
Definition Fa : mat R := mr [[3; 3]; [17; 3]; [18; 19]]%R.
Definition qra (rows cols : nat) (A : mat R) : mat R * mat R := (Qa, Fa).
Definition det2 (A : mat R) : R := (A 0%nat 0%nat * A 1%nat 1%nat - A 0%nat 1%nat * A 1%nat 0%nat)%R.
Definition inv2 (n : nat) (A : mat R) : mat R := mr [[A 1%nat 1%nat / det2 A; - A 0%nat 1%nat / det2 A]; [- A 1%nat 0%nat / det2 A; A 0%nat 0%nat / det2 A]]%R.
Lemma Ja : meq 3 2 (w_J wa) (mr [[1; 3]; [2; 3]; [2; 0]]%R).
Proof. intros [|[|[|r]]] [|[|c]] Hr Hc; try lia; small_ksum; ring. Qed.
Lemma qra_ok : qr_good qra wa.
Proof.
  intros A HA. change (w_rows wa) with 3 in *. change (w_cols wa) with 2 in *. cbn [qra fst snd]. split; [|split].
  - intros r c Hr Hc. rewrite HA, Ja by auto. revert Hr Hc. destruct r as [|[|[|r]]], c as [|[|c]]; intros; try lia; small_ksum; field.
  - intros [|[|[|r]]] [|[|[|c]]] Hr Hc; try lia; small_ksum; field.
  - intros [|[|[|r]]] [|[|[|c]]] Hr Hc; try lia; small_ksum; field.
Qed.
Lemma inv2_ok : inverse_good inv2 2.
Proof.
  intros A (X & H1 & H2).
  pose proof (H1 0 0 ltac:(lia) ltac:(lia)) as E00. pose proof (H1 0 1 ltac:(lia) ltac:(lia)) as E01. pose proof (H1 1 0 ltac:(lia) ltac:(lia)) as E10. pose proof (H1 1 1 ltac:(lia) ltac:(lia)) as E11.
  cbn -[Rplus Rmult] in E00, E01, E10, E11.
  assert (D : det2 A <> 0%R).
  { intros D. assert (E : (det2 A * det2 X = 1)%R); [|rewrite D in E; lra].
    transitivity ((A 0%nat 0%nat * X 0%nat 0%nat + A 0%nat 1%nat * X 1%nat 0%nat) * (A 1%nat 0%nat * X 0%nat 1%nat + A 1%nat 1%nat * X 1%nat 1%nat) - (A 0%nat 0%nat * X 0%nat 1%nat + A 0%nat 1%nat * X 1%nat 1%nat) * (A 1%nat 0%nat * X 0%nat 0%nat + A 1%nat 1%nat * X 1%nat 0%nat))%R; [unfold det2; ring|].
    assert (A00 : (A 0%nat 0%nat * X 0%nat 0%nat + A 0%nat 1%nat * X 1%nat 0%nat = 1)%R) by lra. assert (A01 : (A 0%nat 0%nat * X 0%nat 1%nat + A 0%nat 1%nat * X 1%nat 1%nat = 0)%R) by lra. assert (A11 : (A 1%nat 0%nat * X 0%nat 1%nat + A 1%nat 1%nat * X 1%nat 1%nat = 1)%R) by lra.
    rewrite A00, A01, A11. ring. }
  unfold det2 in D. split; intros [|[|r]] [|[|c]] Hr Hc; try lia; unfold inv2, det2; small_ksum; field; auto.
Qed.
Lemma wa_ok : w_ok wa.
Proof. unfold w_ok. cbn. repeat constructor; cbn; auto. Qed.
Lemma ind_a1 : independent (w_rows wa) (removed_dim wa 1) (w_J wa).
Proof.
  change (w_rows wa) with 3. change (removed_dim wa 1) with 1. intros x H [|i] Hi; [|lia]. specialize (H 0 ltac:(lia)). unfold mvmul in H. cbn [ksum] in H. rewrite Ja in H by lia. cbn -[Rplus Rmult] in H. lra.
Qed.
Lemma ind_a2 : independent (w_rows wa) (w_cols wa) (w_J wa).
Proof.
  change (w_rows wa) with 3. change (w_cols wa) with 2. intros x H. pose proof (H 0 ltac:(lia)) as A. pose proof (H 2 ltac:(lia)) as B. unfold mvmul in A, B. cbn [ksum] in A, B. rewrite !Ja in A by lia. rewrite !Ja in B by lia. cbn -[Rplus Rmult] in A, B.
  intros [|[|i]] Hi; try lia; lra.
Qed.
Lemma run_a : exists p cov, marginalize qra inv2 wa 1 2 = Ok (wa, Some (p, cov)) /\ p_R p 0 0 = 3%R /\ p_d p 0 = (5/3)%R.
Proof. do 2 eexists. split; [reflexivity|]. cbn [p_R p_d]. split; [reflexivity|small_ksum; field]. Qed.

(** fewer equations than unknowns: the indices stay as marginalize assigned them *)
Definition wb : world R := mkWorld [mkMdv 7 4 9 1; mkMdv 8 (-1) (-1) 1] [mkMet 3 11 (mkLt 1 [(0, mr [[1%R]]); (1, mr [[3%R]])] (vr [1%R]) (mr [[1%R]]) 1%R)].
Lemma run_b : marginalize qra inv2 wb 1 0 = Ok (mkWorld [mkMdv 7 0 0 1; mkMdv 8 1 1 1] [mkMet 3 0 (mkLt 1 [(0, mr [[1%R]]); (1, mr [[3%R]])] (vr [1%R]) (mr [[1%R]]) 1%R)], None).
Proof. reflexivity. Qed.
(** too many rows asked for *)
Lemma run_a_top : marginalize qra inv2 wa 1 3 = UB.
Proof. reflexivity. Qed.

(** J = [0 1; 0 0], e = (-1, 0): the first column vanishes *)
Definition wc : world R := mkWorld [mkMdv 7 4 9 1; mkMdv 8 (-1) (-1) 1]
  [mkMet 3 11 (mkLt 2 [(0, mr [[0]; [0]]%R); (1, mr [[1]; [0]]%R)] (vr [-1; 0]%R) (mr [[1; 0]; [0; 1]]%R) 1%R)].
Definition qrc (rows cols : nat) (A : mat R) : mat R * mat R := (mr [[1; 0]; [0; 1]]%R, mr [[0; 1]; [0; 0]]%R).
Lemma Jc : meq 2 2 (w_J wc) (mr [[0; 1]; [0; 0]]%R).
Proof. intros [|[|r]] [|[|c]] Hr Hc; try lia; small_ksum; ring. Qed.
Lemma qrc_ok : qr_good qrc wc.
Proof.
  intros A HA. change (w_rows wc) with 2 in *. change (w_cols wc) with 2 in *. cbn [qrc fst snd]. split; [|split].
  - intros r c Hr Hc. rewrite HA, Jc by auto. revert Hr Hc. destruct r as [|[|r]], c as [|[|c]]; intros; try lia; small_ksum; field.
  - intros [|[|r]] [|[|c]] Hr Hc; try lia; small_ksum; field.
  - intros [|[|r]] [|[|c]] Hr Hc; try lia; small_ksum; field.
Qed.
Lemma wc_ok : w_ok wc.
Proof. unfold w_ok. cbn. repeat constructor; cbn; auto. Qed.
Lemma rank_refuted : ~ (forall qr inverse (w w' : world R) remove numTop p cov, marginalize qr inverse w remove numTop = Ok (w', Some (p, cov)) -> w_ok w -> qr_good qr w ->
  exists c, forall diffs, differences (skipn (Z.to_nat remove) (w_dvs w)) diffs -> exists v, prior_cost p diffs = Ok v /\
    is_minimum (fun x1 => cost (w_rows w) (w_cols w) (w_J w) (w_e w) (both (removed_dim w remove) x1 (joined diffs))) (v + c)).
Proof.
  intros H. destruct (H qrc inv2 wc wc 1%Z 0 _ _ eq_refl wc_ok qrc_ok) as (c & Hc).
  assert (G : forall y, exists v, v = 0%R /\ exists x, cost 2 2 (w_J wc) (w_e wc) (both 1 x (joined [(1, fun _ : nat => y)])) = (v + c)%R).
  { intros y. destruct (Hc [(1, fun _ => y)] eq_refl) as (v & Ev & _ & x & Ex). exists v. split; [|exists x; exact Ex]. cbn -[Rplus Rmult Rminus Ropp] in Ev. change (Pos.to_nat 1) with 1 in Ev. cbn -[Rplus Rmult Rminus Ropp] in Ev. injection Ev as <-. ring. }
  destruct (G 0%R) as (v0 & -> & x0 & E0). destruct (G 1%R) as (v1 & -> & x1 & E1). unfold cost, mvmul in E0, E1. cbn [ksum] in E0, E1. rewrite !Jc in E0 by lia. rewrite !Jc in E1 by lia. cbn -[Rplus Rmult Rminus Ropp] in E0, E1. lra.
Qed.

(** a prior over two variables of dimensions 1 and 2, with Jacobians of their differences *)
Definition pz : prior Z := mkPrior (fun i j => nth j (nth i [[2; 3; 1]; [0; 1; 4]; [0; 0; 5]] []) 0)%Z (fun i => nth i [7; 8; 9] 0)%Z 3 [mkMdv 7 0 0 1; mkMdv 8 0 0 2].
Definition Mz : list (nat * mat Z) := [(1, fun _ _ => 3%Z); (2, fun i j => nth j (nth i [[1; 2]; [0; -1]]%Z []) 0%Z)].
Definition dz : list (nat * vec Z) := [(1, fun _ => 2%Z); (2, fun i => nth i [5; -1]%Z 0%Z)].
Lemma run_jac : map fst Mz = map fst dz /\ map (apply_jacobians (prior_jacobians pz 0 Mz) dz) [0; 1; 2] = [22; 7; 5]%Z.
Proof. vm_compute. auto. Qed.

(** the statements used as examples *)
Lemma case_prior : (exists p cov, marginalize qra inv2 wa 1 2 = Ok (wa, Some (p, cov)) /\ p_R p 0 0 = 3%R /\ p_d p 0 = (5/3)%R) /\ w_ok wa /\ qr_good qra wa /\ independent (w_rows wa) (removed_dim wa 1) (w_J wa).
Proof. split; [exact run_a|]. split; [exact wa_ok|]. split; [exact qra_ok|exact ind_a1]. Qed.
Lemma case_cov : inverse_good inv2 (w_cols wa) /\ independent (w_rows wa) (w_cols wa) (w_J wa).
Proof. split; [exact inv2_ok|exact ind_a2]. Qed.
Lemma exception_refuted : exists qr inverse (w w' : world R) remove numTop, w_ok w /\ marginalize qr inverse w remove numTop = Ok (w', None) /\ map v_block (w_dvs w') <> map v_block (w_dvs w) /\ map t_row (w_ets w') <> map t_row (w_ets w).
Proof. exists qra, inv2, wb. eexists. exists 1%Z, 0. split; [unfold w_ok; cbn; repeat constructor; cbn; auto|]. split; [exact run_b|]. split; cbn; congruence. Qed.
Lemma top_refuted : exists qr inverse (w : world R) remove numTop, w_ok w /\ qr_good qr w /\ independent (w_rows w) (w_cols w) (w_J w) /\ marginalize qr inverse w remove numTop = UB.
Proof. exists qra, inv2, wa, 1%Z, 3. split; [exact wa_ok|]. split; [exact qra_ok|]. split; [exact ind_a2|exact run_a_top]. Qed.
