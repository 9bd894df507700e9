(** * Gauss-Newton from a good and from a bad first guess: two problems with one parameter *)
From Coq Require Import Reals Lra Lia Arith List Bool ZArith.
From Verif Require Import Lib_Ring Lib_Real Policy_Model Policy_Proofs Policy_Proofs3 Lin_Model Lin_Proofs Lin_Proofs2 Nlin_Model Nlin_Spec Nlin_Proofs Nlin_Toy GNConv_Spec GNConv_Proofs.
From Verif Require Optimizer2_Model.
Open Scope R_scope.

(* the errors x + x^2/8 and 1/2, their Jacobian and the solver of one equation *)
Definition ge (x : vec R) : vec R := fun i => if Nat.eqb i 0 then x O + x O * x O / 8 else 1 / 2.
Definition gJ (x : vec R) : mat R := fun i _ => if Nat.eqb i 0 then 1 + x O / 4 else 0.
Definition gs (A : mat R) (lam : R) (r : vec R) : option (vec R) :=
  let h := A O O * A O O + A 1%nat O * A 1%nat O + lam * lam in if Req_EM_T h 0 then None else Some (fun _ => r O / h).
Definition zero : vec R := fun _ => 0.

Lemma norm2 : forall u : vec R, u 1%nat = 0 -> norm 2 u = Rabs (u O).
Proof.
  intros u U. apply norm_eq; [apply Rabs_pos|]. rewrite <- Rabs_mult, Rabs_pos_eq by apply Rle_0_sqr. unfold vdot. cbn [ksum]. cbn [kadd kmul k0 RRing]. rewrite U. ring.
Qed.
Lemma g_dist : forall x, dist 1 x zero = Rabs (x O).
Proof. intros x. unfold dist. rewrite norm1. unfold vsub, zero. cbn. f_equal. ring. Qed.
Lemma g_range : forall x, dist 1 x zero <= 1 -> -1 <= x O <= 1.
Proof. intros x H. rewrite g_dist in H. unfold Rabs in H. destruct (Rcase_abs (x O)); lra. Qed.
Lemma mv1 : forall (A : mat R) v i, mvmul 1 A v i = A i O * v O.
Proof. intros. unfold mvmul. cbn [ksum]. cbn. ring. Qed.

Lemma g_regular : regular 1 2 ge gJ zero 1 (1 / 4) (9 / 16).
Proof.
  constructor.
  - lra.
  - intros p Hp. unfold gradient, mvmul, mtr, gJ, ge, zero. cbn [ksum Nat.eqb]. cbn. field.
  - intros x B. apply g_range in B. rewrite norm2 by (unfold vsub; rewrite mv1; unfold gJ, ge, zero; cbn; field). rewrite g_dist. unfold vsub. rewrite mv1. unfold ge, gJ, zero. cbn [Nat.eqb]. cbn [ksub RRing].
    rewrite <- Rabs_mult, (Rabs_pos_eq (x O * x O)) by apply Rle_0_sqr. right. replace (_ - _ - _) with (x O * x O / 8) by field. rewrite Rabs_pos_eq by (pose proof (Rle_0_sqr (x O)); unfold Rsqr in *; lra). field.
  - intros x v B. rewrite norm2 by (unfold vsub; rewrite !mv1; unfold gJ; cbn; ring). rewrite g_dist, norm1. unfold vsub. rewrite !mv1. unfold gJ, zero. cbn [Nat.eqb]. cbn [ksub RRing].
    replace (_ - _) with (1 / 4 * (x O * v O)) by field. rewrite !Rabs_mult, (Rabs_pos_eq (1 / 4)) by lra. lra.
  - intros x v B. apply g_range in B. unfold vdot. cbn [ksum]. rewrite !mv1. unfold gJ. cbn [Nat.eqb]. cbn [kadd kmul k0 RRing].
    replace (9 / 16 * (0 + v O * v O)) with (9 / 16 * (v O * v O)) by ring. replace (0 + _ + _) with ((1 + x O / 4) * (1 + x O / 4) * (v O * v O)) by ring.
    apply Rmult_le_compat_r; [apply Rle_0_sqr|]. nra.
Qed.
Lemma g_rate : rate (1 / 4) (9 / 16) (norm 2 (ge zero)) 1 = 7 / 18.
Proof.
  assert (norm 2 (ge zero) = 1 / 2) as ->. { apply norm_eq; [lra|]. unfold vdot, ge, zero. cbn [ksum Nat.eqb]. cbn. field. }
  unfold rate. assert (sqrt (9 / 16) = 3 / 4) as ->. { replace (9 / 16) with (3 / 4 * (3 / 4)) by field. apply sqrt_square. lra. } field.
Qed.
Lemma g_solves : solves 1 2 gs.
Proof.
  intros A lam r y E p Hp. assert (p = 0%nat) by lia. subst p. unfold gs in E. destruct (Req_EM_T _ 0) as [|N]; [discriminate|]. injection E as <-.
  unfold mvmul, mmul, mtr. cbn [ksum]. cbn. field. exact N.
Qed.
Lemma g_works : solver_works 1 2 ge gJ gs zero 1.
Proof.
  intros x B. apply g_range in B. unfold gs. destruct (Req_EM_T _ 0) as [Z|]; [|discriminate]. exfalso. unfold gJ in Z. cbn [Nat.eqb] in Z. nra.
Qed.
Lemma g_case : regular 1 2 ge gJ zero 1 (1 / 4) (9 / 16) /\ rate (1 / 4) (9 / 16) (norm 2 (ge zero)) 1 < 1 /\ solves 1 2 gs /\ solver_works 1 2 ge gJ gs zero 1 /\ dist 1 (fun _ => 1) zero <= 1.
Proof. split; [exact g_regular|]. rewrite g_rate. split; [lra|]. split; [exact g_solves|]. split; [exact g_works|]. rewrite g_dist, Rabs_R1. lra. Qed.

(* the error x + x^2/8 alone *)
Definition he (x : vec R) : vec R := fun _ => x O + x O * x O / 8.
Definition hJ (x : vec R) : mat R := fun _ _ => 1 + x O / 4.
Lemma h_range : forall x, dist 1 x zero <= 1 -> -1 <= x O <= 1 /\ 3 / 4 <= 1 + x O / 4 <= 5 / 4.
Proof. intros x H. apply g_range in H. lra. Qed.
Lemma h_case : regular 1 1 he hJ zero 1 (1 / 4) (9 / 16) /\ norm 1 (he zero) = 0 /\ rate (1 / 4) (9 / 16) (norm 1 (he zero)) 1 < 1 /\
  (forall x v, dist 1 x zero <= 1 -> norm 1 (mvmul 1 (hJ x) v) <= 5 / 4 * norm 1 v) /\ (5 / 4 + 1 / 4 / 2 * 1) * (1 / 4 / (2 * sqrt (9 / 16)) * 1) + 1 / 4 / 2 * 1 <= sqrt (9 / 16) /\
  solves 1 1 sv /\ solver_works 1 1 he hJ sv zero 1 /\ dist 1 (fun _ => 1) zero <= 1.
Proof.
  assert (sqrt (9 / 16) = 3 / 4) as Sq. { replace (9 / 16) with (3 / 4 * (3 / 4)) by field. apply sqrt_square. lra. }
  assert (norm 1 (he zero) = 0) as Nz. { rewrite norm1. unfold he, zero. replace (0 + 0 * 0 / 8) with 0 by field. apply Rabs_R0. }
  split; [|split; [exact Nz|split; [|split; [|split; [|split; [exact sv_solves|split]]]]]].
  - constructor.
    + lra.
    + intros p Hp. unfold gradient, mvmul, mtr, hJ, he, zero. cbn [ksum]. cbn. field.
    + intros x B. rewrite norm1, g_dist. unfold vsub. rewrite mv1. unfold he, hJ, zero. cbn [ksub RRing].
      rewrite <- Rabs_mult, (Rabs_pos_eq (x O * x O)) by apply Rle_0_sqr. right. replace (_ - _ - _) with (x O * x O / 8) by field. rewrite Rabs_pos_eq by (pose proof (Rle_0_sqr (x O)); unfold Rsqr in *; lra). field.
    + intros x v B. rewrite !norm1, g_dist. unfold vsub. rewrite !mv1. unfold hJ, zero. cbn [ksub RRing].
      replace (_ - _) with (1 / 4 * (x O * v O)) by field. rewrite !Rabs_mult, (Rabs_pos_eq (1 / 4)) by lra. lra.
    + intros x v B. apply h_range in B. rewrite !dot1, mv1. unfold hJ.
      replace ((1 + x O / 4) * v O * ((1 + x O / 4) * v O)) with ((1 + x O / 4) * (1 + x O / 4) * (v O * v O)) by ring. apply Rmult_le_compat_r; [apply Rle_0_sqr|]. nra.
  - rewrite Nz. unfold rate. rewrite Sq. lra.
  - intros x v B. apply h_range in B. rewrite !norm1, mv1. unfold hJ. rewrite Rabs_mult. apply Rmult_le_compat_r; [apply Rabs_pos|]. rewrite Rabs_pos_eq; lra.
  - rewrite Sq. lra.
  - intros x B. apply h_range in B. rewrite sv_eq; [discriminate|]. unfold hJ. nra.
  - rewrite g_dist, Rabs_R1. lra.
Qed.

(* the error x^3 - 2 x + 2 + x^2 (x - 1)^2 / 18: a zero at -2, and Gauss-Newton goes from 0 to 1 and from 1 to 0 *)
Definition cyc (x : R) : R := x ^ 3 - 2 * x + 2 + (x ^ 4 - 2 * x ^ 3 + x ^ 2) / 18.
Definition dcyc (x : R) : R := 3 * x ^ 2 - 2 + (4 * x ^ 3 - 6 * x ^ 2 + 2 * x) / 18.
Definition ce (x : vec R) : vec R := fun _ => cyc (x O).
Definition cJ_ (x : vec R) : mat R := fun _ _ => dcyc (x O).
Lemma cyc_derivative : forall x, derivable_pt_lim cyc x (dcyc x).
Proof.
  intros x. assert (forall k n, derivable_pt_lim (fun y => k * y ^ n) x (k * (INR n * x ^ pred n))) as P.
  { intros k n. exact (derivable_pt_lim_scal (fun y => y ^ n) k x _ (derivable_pt_lim_pow x n)). }
  assert (dcyc x = 1 / 18 * (INR 4 * x ^ 3) + 16 / 18 * (INR 3 * x ^ 2) + 1 / 18 * (INR 2 * x ^ 1) + -2 * (INR 1 * x ^ 0) + 2 * (INR 0 * x ^ 0)) as ->.
  { unfold dcyc. cbn [INR pow]. field. }
  apply (derivable_pt_lim_ext (fun x => 1 / 18 * x ^ 4 + 16 / 18 * x ^ 3 + 1 / 18 * x ^ 2 + -2 * x ^ 1 + 2 * x ^ 0)); [intros y; unfold cyc; field|].
  refine (derivable_pt_lim_plus (fun x => 1 / 18 * x ^ 4 + 16 / 18 * x ^ 3 + 1 / 18 * x ^ 2 + -2 * x ^ 1) (fun x => 2 * x ^ 0) x _ _ _ (P _ 0%nat)).
  refine (derivable_pt_lim_plus (fun x => 1 / 18 * x ^ 4 + 16 / 18 * x ^ 3 + 1 / 18 * x ^ 2) (fun x => -2 * x ^ 1) x _ _ _ (P _ 1%nat)).
  refine (derivable_pt_lim_plus (fun x => 1 / 18 * x ^ 4 + 16 / 18 * x ^ 3) (fun x => 1 / 18 * x ^ 2) x _ _ _ (P _ 2%nat)).
  exact (derivable_pt_lim_plus (fun x => 1 / 18 * x ^ 4) (fun x => 16 / 18 * x ^ 3) x _ _ (P _ 4%nat) (P _ 3%nat)).
Qed.
Notation cpo := (gn 1 1 ce cJ_ sv).
Definition cinv (opt : ropt) (l : nst (vec R) cpo) : Prop :=
  n_lsf _ cpo l = false /\ n_fail _ cpo l = 0%Z /\ o_dx opt < n_mdx _ cpo l /\ o_dJ opt < Rabs (n_dJ _ cpo l) /\
  ((n_x _ cpo l O = 0 /\ n_pJ _ cpo l = 4) \/ (n_x _ cpo l O = 1 /\ n_pJ _ cpo l = 1)).
Lemma cstep : forall opt l, o_dx opt < 1 -> o_dJ opt < 3 -> cinv opt l -> cinv opt (n_iteration (vec R) vadd 1 1 ce cpo l) /\ n_it _ cpo (n_iteration (vec R) vadd 1 1 ce cpo l) = (n_it _ cpo l + 1)%Z.
Proof.
  intros opt l Ox Oj (I1 & I2 & _ & _ & I3). unfold n_iteration. cbn [np_solve gn n_gauss_newton np_reverts]. unfold gn_solve. cbn [csolve cfresh].
  set (x := n_x _ cpo l) in *.
  assert (n_rhs (vec R) 1 ce cJ_ x O = - (dcyc (x O) * cyc (x O))) as Rh. { unfold n_rhs, mvmul, mtr, ce, cJ_. cbn [ksum]. cbn. ring. }
  assert (dcyc (x O) * dcyc (x O) <> 0) as Nz. { destruct I3 as [[-> _]|[-> _]]; unfold dcyc; lra. }
  unfold n_reply. rewrite sv_eq by (unfold cJ_; lra). cbn [fst snd]. set (d := (fun _ => _) : vec R).
  assert (d O = - (cyc (x O) / dcyc (x O))) as Dd. { unfold d. rewrite Rh. unfold cJ_. field. intros Z. apply Nz. rewrite Z. ring. }
  assert (forall y : vec R, n_cost (vec R) 1 ce y = cyc (y O) * cyc (y O)) as Co. { intros y. unfold n_cost. rewrite dot1. reflexivity. }
  split; [|reflexivity]. unfold cinv. cbn [n_lsf n_fail n_mdx n_dJ n_x n_pJ]. split; auto. split; auto. rewrite Co. unfold vadd. cbn [kadd RRing maxabs].
  destruct I3 as [[X ->]|[X ->]]; rewrite Dd, X.
  - replace (- (cyc 0 / dcyc 0)) with 1 by (unfold cyc, dcyc; field). replace (cyc (0 + 1)) with 1 by (unfold cyc; field). rewrite Rabs_R1, Rmax_right by lra. rewrite Rabs_pos_eq by lra.
    split; [lra|]. split; [lra|]. right. lra.
  - replace (- (cyc 1 / dcyc 1)) with (-1) by (unfold cyc, dcyc; field). replace (cyc (1 + -1)) with 2 by (unfold cyc; field). rewrite (Rabs_left (-1)), Rmax_right by lra. rewrite Rabs_left by lra.
    split; [lra|]. split; [lra|]. left. lra.
Qed.
Lemma cloop : forall opt f l, o_dx opt < 1 -> o_dJ opt < 3 -> cinv opt l -> (0 <= n_it _ cpo l <= o_max opt)%Z -> (Z.to_nat (o_max opt - n_it _ cpo l) <= f)%nat ->
  exists l', n_loop (vec R) vadd 1 1 ce cpo opt f l = Some l' /\ cinv opt l' /\ n_it _ cpo l' = o_max opt.
Proof.
  intros opt f. induction f as [|f IH]; intros l Ox Oj I It F; cbn [n_loop]; unfold n_continue at 1; pose proof I as (I1 & I2 & I3 & I4 & _); rewrite I1, I2, (proj2 (rlt_true _ _) I3), (proj2 (rlt_true _ _) I4); cbn [andb orb]; rewrite andb_true_r.
  - rewrite (proj2 (Z.ltb_ge _ _)) by lia. cbn [andb]. exists l. split; auto. split; auto. lia.
  - destruct (Z.ltb_spec (n_it _ cpo l) (o_max opt)) as [Lt|Ge]; cbn [andb].
    + rewrite (proj2 (Z.ltb_lt _ _)) by lia. destruct (cstep opt l Ox Oj I) as [S1 S2]. apply IH; auto; rewrite S2; lia.
    + exists l. split; auto. split; auto. lia.
Qed.
Lemma cycles : (forall x, derivable_pt_lim cyc x (dcyc x)) /\ cyc (-2) = 0 /\ dcyc (-2) <> 0 /\ solves 1 1 sv /\
  forall opt, o_dx opt < 1 -> o_dJ opt < 3 -> (0 <= o_max opt)%Z -> exists l, n_optimize (vec R) vadd 1 1 ce cpo opt zero = Some l /\ n_status _ cpo opt l = Optimizer2_Model.MAX_ITERATIONS /\
    (n_x _ cpo l O = 0 \/ n_x _ cpo l O = 1).
Proof.
  split; [exact cyc_derivative|]. split; [unfold cyc; field|]. split; [unfold dcyc; lra|]. split; [exact sv_solves|]. intros opt Ox Oj Om.
  assert (cinv opt (n_start (vec R) 1 ce cpo opt zero)) as I0.
  { unfold cinv, n_start. cbn [n_lsf n_fail n_mdx n_dJ n_x n_pJ]. split; auto. split; auto. split; [lra|]. split; [unfold Rabs; destruct (Rcase_abs _); lra|]. left. split; [reflexivity|].
    unfold n_cost. rewrite dot1. unfold ce, zero, cyc. field. }
  destruct (cloop opt (Z.to_nat (o_max opt) + Z.to_nat (o_max opt)) _ Ox Oj I0) as (l & L1 & L2 & L3); [cbn; lia|cbn; lia|].
  exists l. split; [exact L1|]. split; [unfold n_status; rewrite L3, Z.leb_refl; reflexivity|]. destruct L2 as (_ & _ & _ & _ & [[? _]|[? _]]); auto.
Qed.
