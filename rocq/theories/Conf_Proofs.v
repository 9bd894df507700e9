From Coq Require Import String Ascii ZArith Reals List Bool Lra Lia.
From Verif Require Import Lib_Res Conf_Model Conf_Spec.
Import ListNotations.
Local Open Scope string_scope.
Local Open Scope R_scope.

Lemma ge_iff : forall a b, ge a b = true <-> b <= a.
Proof. intros. unfold ge. destruct (Rle_dec b a); split; auto; try discriminate; intros; contradiction. Qed.
Lemma gt_iff : forall a b, gt a b = true <-> b < a.
Proof. intros. unfold gt. destruct (Rlt_dec b a); split; auto; try discriminate; intros; contradiction. Qed.

Ltac bools := rewrite ?andb_true_iff, ?orb_true_iff, ?ge_iff, ?gt_iff, ?Z.leb_le, ?Z.ltb_lt.

Lemma base_check_iff : forall b, base_check b = true <-> base_valid b.
Proof. intros. unfold base_check, base_valid. bools. intuition lra || intuition. Qed.
Lemma rprop_check_iff : forall o, rprop_check o = true <-> rprop_valid o.
Proof. intros. unfold rprop_check, rprop_valid. bools. rewrite base_check_iff. intuition. Qed.
Lemma ls_check_iff : forall o, ls_check o = true <-> ls_valid o.
Proof. intros. unfold ls_check, ls_valid. bools. intuition. Qed.
Lemma bfgs_check_iff : forall o, bfgs_check o = true <-> bfgs_valid o.
Proof. intros. unfold bfgs_check, bfgs_valid. rewrite andb_true_iff, base_check_iff, ls_check_iff. tauto. Qed.
Lemma hmc_check_iff : forall o, hmc_check o = true <-> hmc_valid o.
Proof. intros. unfold hmc_check, hmc_valid. bools. intuition lra. Qed.

Lemma get_ok : forall A (cv : entry -> option A) t k d x, get cv t k d = Ok x <-> says cv t k d x.
Proof.
  intros. unfold get, says. destruct (t k) as [e|].
  - destruct (cv e) eqn:E; split.
    + intros [= ->]. right. exists e. auto.
    + intros [[? _]|(e' & [= <-] & H)]; [discriminate|]. congruence.
    + discriminate.
    + intros [[? _]|(e' & [= <-] & H)]; [discriminate|]. congruence.
  - split. + intros [= ->]; auto. + intros [[_ ->]|(e' & ? & _)]; [auto|discriminate].
Qed.
Lemma get_not_ub : forall A (cv : entry -> option A) t k d, get cv t k d <> UB.
Proof. intros. unfold get. destruct (t k) as [e|]; [destruct (cv e)|]; discriminate. Qed.
Lemma says_fun : forall A (cv : entry -> option A) t k d x y, says cv t k d x -> says cv t k d y -> x = y.
Proof. intros A cv t k d x y Hx Hy. apply get_ok in Hx, Hy. congruence. Qed.
Lemma get_throw : forall A (cv : entry -> option A) t k d x, get cv t k d = Throw -> ~ says cv t k d x.
Proof. intros A cv t k d x H Hx. apply get_ok in Hx. congruence. Qed.

(** splits a constructor at its next [get] *)
Ltac rd := match goal with |- context [bind (get ?cv ?t ?k ?d) _] =>
  let E := fresh "G" in destruct (get cv t k d) eqn:E;
    [apply get_ok in E; cbn [bind]
    |cbn [bind]; let HH := fresh in intros ? HH; exfalso; revert HH
    |exfalso; exact (get_not_ub _ _ _ _ _ E)] end.
Ltac same := repeat match goal with H : says ?cv ?t ?k ?d ?x, H' : says ?cv ?t ?k ?d ?y |- _ =>
   first [ constr_eq x y; fail 1 | let E := fresh "E" in pose proof (says_fun _ cv t k d x y H H') as E; clear H'; try (rewrite <- E in * ); try subst ] end.

Lemma base_make : reads_and_checks base_of base_reads base_valid.
Proof.
  intros t. unfold base_of, base_default, gradNorm, deltaX, deltaError, maxIt, nJac, nErr.
  do 6 (match goal with |- context [bind (get ?cv ?t ?k ?d) _] =>
    let E := fresh "G" in destruct (get cv t k d) eqn:E;
    [apply get_ok in E; cbn [bind]
    |cbn [bind]; intros o (R1 & R2 & R3 & R4 & (z5 & R5 & _) & (z6 & R6 & _)) _; exact (get_throw _ _ _ _ _ _ E ltac:(eassumption))
    |exfalso; exact (get_not_ub _ _ _ _ _ E)] end).
  set (b := mkBase _ _ _ _ _ _). cbn zeta.
  assert (Hb : base_reads t b).
  { unfold base_reads, b; cbn. repeat split; auto. - exists a3; split; auto. - exists a4; split; auto. }
  destruct (base_check b) eqn:C; cbn [assert bind].
  - split; [exact Hb|]. apply base_check_iff; exact C.
  - intros o (R1 & R2 & R3 & R4 & (z5 & R5 & E5) & (z6 & R6 & E6)) V.
    assert (o = b) as ->; [|apply base_check_iff in V; congruence].
    destruct Hb as (Q1 & Q2 & Q3 & Q4 & (w5 & Q5 & F5) & (w6 & Q6 & F6)).
    assert (z5 = w5) as -> by (eapply says_fun; eauto). assert (z6 = w6) as -> by (eapply says_fun; eauto).
    destruct o as [o1 o2 o3 o4 o5 o6]; cbn in *.
    rewrite E5, E6. unfold b. f_equal; try (eapply says_fun; eassumption); [rewrite <- F5|rewrite <- F6]; reflexivity.
Qed.

Lemma says_count_fun : forall t k d x y, says_count t k d x -> says_count t k d y -> x = y.
Proof. intros t k d x y (z & Hz & ->) (w & Hw & ->). rewrite (says_fun _ _ _ _ _ _ _ Hz Hw). reflexivity. Qed.
Lemma says_real_count_fun : forall t k d x y, says_real_count t k d x -> says_real_count t k d y -> x = y.
Proof.
  intros t k d x y (z & Hz & _ & Px & Nx & Bx) (w & Hw & _ & Py & Ny & By).
  rewrite <- (says_fun _ _ _ _ _ _ _ Hz Hw) in *. destruct (Rlt_dec z 0) as [L|L].
  - rewrite (Nx L), (Ny L). reflexivity.
  - apply Rnot_lt_le in L. specialize (Bx L). specialize (By L).
    assert (IZR x < IZR (y + 1)) by (rewrite plus_IZR; lra). assert (IZR y < IZR (x + 1)) by (rewrite plus_IZR; lra).
    apply lt_IZR in H, H0. lia.
Qed.
Ltac fun_fields := repeat match goal with H : _ /\ _ |- _ => destruct H end;
  f_equal; first [ eapply says_fun; eassumption | eapply says_count_fun; eassumption | eapply says_real_count_fun; eassumption | congruence | idtac ].

Lemma base_fun : forall t o o', base_reads t o -> base_reads t o' -> o = o'.
Proof. intros t [] [] H H'. unfold base_reads in *. cbn in *. fun_fields. Qed.
Lemma ls_fun : forall t o o', ls_reads t o -> ls_reads t o' -> o = o'.
Proof. intros t [] [] H H'. unfold ls_reads in *. cbn in *. fun_fields. Qed.
Lemma rprop_fun : forall t o o', rprop_reads t o -> rprop_reads t o' -> o = o'.
Proof. intros t [] [] H H'. unfold rprop_reads in *. cbn in *. fun_fields. eapply base_fun; eassumption. Qed.
Lemma bfgs_fun : forall t o o', bfgs_reads t o -> bfgs_reads t o' -> o = o'.
Proof. intros t [] [] H H'. unfold bfgs_reads in *. cbn in *. fun_fields. eapply base_fun; eassumption. eapply ls_fun; eassumption. Qed.
Lemma hmc_fun : forall t o o', hmc_reads t o -> hmc_reads t o' -> o = o'.
Proof. intros t [] [] H H'. unfold hmc_reads in *. cbn in *. fun_fields. Qed.

Ltac rdg P := match goal with |- context [bind (get ?cv ?t ?k ?d) _] =>
    let E := fresh "G" in destruct (get cv t k d) eqn:E;
    [apply get_ok in E; cbn [bind]
    |cbn [bind]; let o := fresh "o" in let Ro := fresh "Ro" in intros o Ro _; exfalso; revert Ro; unfold P, says_count, says_real_count; intros Ro;
       repeat match goal with H : _ /\ _ |- _ => destruct H | H : exists _, _ |- _ => destruct H end; eapply get_throw; eassumption
    |exfalso; exact (get_not_ub _ _ _ _ _ E)] end.

Lemma rprop_make : reads_and_checks rprop_new_of rprop_reads rprop_valid.
Proof.
  intros t. unfold rprop_new_of, rprop_of. pose proof (base_make t) as HB. destruct (base_of t) as [b| |]; cbn [bind]; [| |contradiction].
  2:{ intros o (Ro & _) (V & _). exact (HB _ Ro V). }
  destruct HB as [Rb Vb]. unfold rprop_default. cbn [etaMinus etaPlus delta0 deltaMin deltaMax r_dense r_reg r_method].
  do 5 rdg rprop_reads. set (o := mkRprop _ _ _ _ _ _ _ _ _). cbn zeta.
  assert (Ho : rprop_reads t o) by (unfold rprop_reads, o; cbn; tauto).
  unfold rprop_new. destruct (rprop_check o) eqn:C; cbn [assert bind]; [rewrite C; cbn [assert bind]|].
  - split; [exact Ho|]. apply rprop_check_iff; exact C.
  - intros o' R' V'. rewrite (rprop_fun _ _ _ R' Ho) in V'. apply rprop_check_iff in V'. congruence.
Qed.

Lemma ls_make : forall t, match ls_of (subtree t "linesearch") with
    | Ok o => ls_reads t o /\ ls_valid o
    | Throw => forall o, ls_reads t o -> ~ ls_valid o
    | UB => False end.
Proof.
  intros t. unfold ls_of, ls_default. cbn [c1 c2 maxStep minStep xtol step0 nWolfe1 nWolfe2 nZoom].
  do 9 (match goal with |- context [bind (get ?cv (subtree t "linesearch") ?k ?d) _] =>
    change (get cv (subtree t "linesearch") k d) with (get cv t ("linesearch/" ++ k) d); cbn [append] end; rdg ls_reads).
  set (o := mkLs _ _ _ _ _ _ _ _ _). cbn zeta.
  assert (Ho : ls_reads t o) by (unfold ls_reads, says_count, o; cbn; repeat split; eauto).
  destruct (ls_check o) eqn:C; cbn [assert bind].
  - split; [exact Ho|]. apply ls_check_iff; exact C.
  - intros o' R' V'. rewrite (ls_fun _ _ _ R' Ho) in V'. apply ls_check_iff in V'. congruence.
Qed.

Lemma bfgs_make : reads_and_checks bfgs_new_of (fun t s => bfgs_reads t (bo_opts s) /\ bo_search s = b_ls (bo_opts s)) (fun s => bfgs_valid (bo_opts s)).
Proof.
  intros t. unfold bfgs_new_of, bfgs_of. pose proof (base_make t) as HB. destruct (base_of t) as [b| |]; cbn [bind]; [| |contradiction].
  2:{ intros o ((Ro & _) & _) (V & _). exact (HB _ Ro V). }
  pose proof (ls_make t) as HL. destruct (ls_of (subtree t "linesearch")) as [l| |]; cbn [bind]; [| |contradiction].
  2:{ intros o ((_ & Ro & _) & _) (_ & V). exact (HL _ Ro V). }
  destruct HB as [Rb Vb], HL as [Rl Vl]. unfold bfgs_default. cbn [b_dense b_reg].
  rdg bfgs_reads. cbn zeta. set (o := mkBfgs _ _ _ _).
  pose proof (proj2 (ls_check_iff l) Vl) as Cl. rewrite Cl. cbn [assert bind]. unfold bfgs_new.
  replace (b_ls o) with l by reflexivity. rewrite Cl. cbn [assert bind].
  rewrite (proj2 (bfgs_check_iff o)) by (split; assumption). cbn [assert bind bo_opts bo_search].
  split; [split; [|reflexivity]|]; split; try assumption. split; [assumption|]. split; [assumption|reflexivity].
Qed.

Lemma size_of_double_ok : forall x n, size_of_double x = Ok n -> -1 < x < IZR (2 ^ 64) /\ (0 <= n)%Z /\ (x < 0 -> n = 0%Z) /\ (0 <= x -> IZR n <= x < IZR n + 1).
Proof.
  intros x n. unfold size_of_double. destruct (Rlt_dec (-1) x) as [L|]; [|discriminate]. destruct (Rlt_dec x (IZR (2 ^ 64))) as [U|]; [|discriminate].
  destruct (Rlt_dec x 0) as [N|N]; intros [= <-].
  - split; [split; assumption|]. split; [lia|]. split; [auto|]. intros; lra.
  - apply Rnot_lt_le in N. destruct (base_Int_part x) as [B1 B2]. split; [split; assumption|].
    assert (0 <= Int_part x)%Z. { assert (IZR (-1) < IZR (Int_part x)) by lra. apply lt_IZR in H. lia. }
    split; [assumption|]. split; intros; lra.
Qed.
Lemma size_of_double_not_throw : forall x, size_of_double x <> Throw.
Proof. intros x. unfold size_of_double. destruct (Rlt_dec (-1) x); [|discriminate]. destruct (Rlt_dec x (IZR (2 ^ 64))); discriminate. Qed.
Lemma size_of_double_ub : forall x, size_of_double x = UB <-> x <= -1 \/ IZR (2 ^ 64) <= x.
Proof.
  intros x. unfold size_of_double. destruct (Rlt_dec (-1) x) as [L|L].
  - destruct (Rlt_dec x (IZR (2 ^ 64))) as [U|U]; split; intros H; try discriminate; try reflexivity.
    + destruct H; lra.
    + right. apply Rnot_lt_le; assumption.
  - split; [|reflexivity]. intros _. left. apply Rnot_lt_le; assumption.
Qed.

Lemma hmc_make : forall t, match hmc_of t with
    | Ok o => hmc_reads t o /\ hmc_valid o
    | Throw => forall o, hmc_reads t o -> ~ hmc_valid o
    | UB => exists x, says as_double t "nThreads" 2 x /\ (x <= -1 \/ IZR (2 ^ 64) <= x) end.
Proof.
  intros t. unfold hmc_of, hmc_default. cbn [h_step0 h_min h_max h_inc h_dec h_rate h_std h_steps h_threads].
  do 8 rdg hmc_reads. destruct (size_of_double a6) as [n| |] eqn:S0; cbn [bind].
  2:{ exfalso; exact (size_of_double_not_throw _ S0). }
  2:{ exists a6. split; [assumption|]. apply size_of_double_ub; assumption. }
  apply size_of_double_ok in S0. set (o := mkHmc _ _ _ _ _ _ _ _ _). cbn zeta.
  assert (Ho : hmc_reads t o). { unfold hmc_reads, says_count, says_real_count, o; cbn. repeat (split; [eauto; fail|]). exists a6. split; [assumption|exact S0]. }
  destruct (hmc_check o) eqn:C; cbn [assert bind].
  - split; [exact Ho|]. apply hmc_check_iff; exact C.
  - intros o' R' V'. rewrite (hmc_fun _ _ _ R' Ho) in V'. apply hmc_check_iff in V'. congruence.
Qed.

Lemma mh_make : forall t, match mh_of t with
    | Ok o => mh_reads t o
    | Throw => forall o, ~ mh_reads t o
    | UB => exists x, says as_double t "nThreadsEvaluateLogDensity" 1 x /\ (x <= -1 \/ IZR (2 ^ 64) <= x) end.
Proof.
  intros t. unfold mh_of, mh_default. cbn [m_sigma m_threads].
  destruct (get as_double t "transitionKernelSigma" (1/10)) as [s| |] eqn:G1; [apply get_ok in G1; cbn [bind]| |exfalso; exact (get_not_ub _ _ _ _ _ G1)].
  2:{ cbn [bind]. intros o [H _]. exact (get_throw _ _ _ _ _ _ G1 H). }
  destruct (get as_double t "nThreadsEvaluateLogDensity" 1) as [x| |] eqn:G2; [apply get_ok in G2; cbn [bind]| |exfalso; exact (get_not_ub _ _ _ _ _ G2)].
  2:{ cbn [bind]. intros o [_ (x & H & _)]. exact (get_throw _ _ _ _ _ _ G2 H). }
  destruct (size_of_double x) as [n| |] eqn:S0; cbn [bind].
  - apply size_of_double_ok in S0. split; [exact G1|]. exists x. split; [exact G2|exact S0].
  - exfalso; exact (size_of_double_not_throw _ S0).
  - exists x. split; [assumption|]. apply size_of_double_ub; assumption.
Qed.

Lemma lm_make : forall t, match lmp_of t with Ok o => lm_reads t o | Throw => forall o, ~ lm_reads t o | UB => False end.
Proof.
  intros t. unfold lmp_of.
  repeat match goal with |- context [bind (get ?cv ?t ?k ?d) _] =>
    let E := fresh "G" in destruct (get cv t k d) eqn:E;
    [apply get_ok in E; cbn [bind]
    |cbn [bind]; intros o (R1 & R2 & R3 & R4 & R5); exact (get_throw _ _ _ _ _ _ E ltac:(eassumption))
    |exfalso; exact (get_not_ub _ _ _ _ _ E)] end.
  unfold lm_reads; cbn; tauto.
Qed.

(** ** names that changed *)
Lemma deprecated_ok : forall A eqd (cv : entry -> option A) t old new d, t old = None \/ t new = None ->
  match deprecated eqd cv t old new d with Ok x => says_either cv t old new d x | Throw => forall x, ~ says_either cv t old new d x | UB => False end.
Proof.
  intros A eqd cv t old new d H. unfold deprecated.
  assert (absent : forall k, t k = None -> get cv t k d = Ok d) by (intros k E; unfold get; rewrite E; reflexivity).
  assert (unsaid : forall k x, t k = None -> says cv t k d x -> x = d).
  { intros k x E [[_ ->]|(e & E' & _)]; [reflexivity|congruence]. }
  assert (both : forall x, says_either cv t old new d x -> (t old = None -> says cv t new d x) /\ (t new = None -> says cv t old d x)).
  { intros x [[E S1]|[E S1]]; split; intros E'; auto.
    - rewrite (unsaid _ _ E' S1). left; auto.
    - rewrite (unsaid _ _ E' S1). left; auto. }
  destruct H as [H|H].
  - rewrite (absent _ H). cbn [bind]. destruct (get cv t new d) as [v| |] eqn:G; cbn [bind]; [| |exact (get_not_ub _ _ _ _ _ G)].
    + destruct (eqd d d) as [_|N]; [|congruence]. left. split; [exact H|]. apply get_ok; exact G.
    + intros x Hx. exact (get_throw _ _ _ _ _ x G (proj1 (both x Hx) H)).
  - destruct (get cv t old d) as [v| |] eqn:G; cbn [bind]; [| |exact (get_not_ub _ _ _ _ _ G)].
    + rewrite (absent _ H). cbn [bind]. apply get_ok in G. destruct (eqd v d) as [->|N]; [right; auto|].
      destruct (eqd d d) as [_|N']; [|congruence]. right; auto.
    + intros x Hx. exact (get_throw _ _ _ _ _ x G (proj2 (both x Hx) H)).
Qed.

Lemma opt2_make : forall t sv pl, (t "convergenceDeltaJ" = None \/ t "convergenceDeltaError" = None) -> (t "nThreads" = None \/ t "numThreadsJacobian" = None) ->
  match opt2_new_of t sv pl with Ok s => opt2_reads t (oo_opts s) /\ o_solver (oo_opts s) = sv /\ o_policy (oo_opts s) = pl | Throw => forall o, ~ opt2_reads t o | UB => False end.
Proof.
  intros t sv pl H1 H2. unfold opt2_new_of, opt2_of, opt2_default. cbn [o_base o_schur o_verbose o_fails gradNorm deltaX deltaError maxIt nJac nErr]. cbv zeta.
  pose proof (deprecated_ok _ Req_EM_T as_double t _ _ (1/1000) H1) as D1.
  destruct (deprecated Req_EM_T as_double t "convergenceDeltaJ" "convergenceDeltaError" (1/1000)) as [e| |]; cbn [bind]; [| |exact D1].
  2:{ intros o Ro. destruct Ro as (_ & Ro & _). exact (D1 _ Ro). }
  Ltac rdo := match goal with |- context [bind (get ?cv ?t ?k ?d) _] =>
    let E := fresh "G" in destruct (get cv t k d) eqn:E;
    [apply get_ok in E; cbn [bind]
    |cbn [bind]; intros o (R0 & R1 & R2 & R3 & R4 & R5 & R6 & R7 & (z8 & R8 & _)); exact (get_throw _ _ _ _ _ _ E ltac:(eassumption))
    |exact (get_not_ub _ _ _ _ _ E)] end.
  do 5 rdo.
  pose proof (deprecated_ok _ Z.eq_dec as_int t _ _ 4%Z H2) as D2.
  destruct (deprecated Z.eq_dec as_int t "nThreads" "numThreadsJacobian" 4%Z) as [j| |]; cbn [bind]; [| |exact D2].
  2:{ intros o Ro. destruct Ro as (_ & _ & _ & _ & _ & _ & _ & (z & Rz & _) & _). exact (D2 _ Rz). }
  rdo. unfold opt2_new; cbn [bind oo_opts]. split; [|split; reflexivity].
  unfold opt2_reads, says_count; cbn. repeat split; auto; eauto.
Qed.
