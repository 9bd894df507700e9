(** * Concrete configurations (C83) *)
From Coq Require Import String Ascii ZArith Reals List Bool Lra Lia.
From Verif Require Import Lib_Res Conf_Model Conf_Spec Conf_Proofs Conf_Proofs2.
Import ListNotations.
Local Open Scope string_scope.
Local Open Scope R_scope.

(** a tree from a list of keys, as written in a configuration file *)
Fixpoint tree_of (l : list (string * entry)) : tree :=
  fun k => match l with [] => None | (k', e) :: l' => if (k =? k')%string then Some e else tree_of l' k end.
Definition dbl_entry (x : R) : entry := mkEntry (Some x) None None.
Definition int_entry (z : Z) : entry := mkEntry (Some (IZR z)) (Some z) None.
Definition empty : tree := tree_of [].

Ltac known := first [ left; split; [reflexivity|reflexivity] | right; eexists; split; [reflexivity|reflexivity] ].

Lemma valid_default : base_valid base_default. Proof. unfold base_valid, base_default; cbn. split; [lra|]. split; [lra|]. split; [lra|]. split; [lra|lia]. Qed.
Lemma pow_pos : forall n, 0 < / 10 ^ n. Proof. intros. apply Rinv_0_lt_compat. apply pow_lt. lra. Qed.
Lemma pow_small : forall n, (1 <= n)%nat -> / 10 ^ n < 1.
Proof. intros n H. rewrite <- Rinv_1. apply Rinv_lt_contravar; [rewrite Rmult_1_l; apply pow_lt; lra|]. apply Rlt_pow_R1; [lra|lia]. Qed.
Lemma rprop_default_valid : rprop_valid rprop_default.
Proof.
  split; [exact valid_default|]. unfold rprop_default; cbn [etaMinus etaPlus delta0 deltaMin deltaMax].
  split; [lra|]. split; [lra|]. split; [apply pow_pos|apply pow_small; lia].
Qed.
Lemma ls_default_valid : ls_valid ls_default.
Proof.
  unfold ls_valid, ls_default; cbn [c1 c2 maxStep minStep xtol step0 nWolfe1 nWolfe2 nZoom].
  pose proof (pow_pos 4). pose proof (pow_pos 8). pose proof (pow_pos 14).
  assert (/ 10 ^ 4 <= 9/10). { apply Rmult_le_reg_l with (10 ^ 4); [apply pow_lt; lra|]. rewrite Rinv_r; [lra|]. apply pow_nonzero; lra. }
  repeat split; try lra; lia.
Qed.
Lemma bfgs_default_valid : bfgs_valid bfgs_default. Proof. split; [exact valid_default|exact ls_default_valid]. Qed.
Lemma hmc_default_valid : hmc_valid hmc_default.
Proof. unfold hmc_valid, hmc_default; cbn. repeat split; lra. Qed.

Lemma base_default_reads : base_reads empty base_default.
Proof. unfold base_reads, base_default; cbn. repeat split; try known; [exists 4%Z|exists 1%Z]; (split; [known|reflexivity]). Qed.
Lemma rprop_default_reads : rprop_reads empty rprop_default.
Proof. split; [exact base_default_reads|]. unfold rprop_default; cbn. repeat split; known. Qed.
Lemma ls_default_reads : ls_reads empty ls_default.
Proof. unfold ls_reads, ls_default; cbn [c1 c2 maxStep minStep xtol step0 nWolfe1 nWolfe2 nZoom]. do 6 (split; [known|]). split; [exists 30%Z|split; exists 10%Z]; (split; [known|reflexivity]). Qed.
Lemma hmc_default_reads : hmc_reads empty hmc_default.
Proof.
  unfold hmc_reads, hmc_default; cbn [h_step0 h_min h_max h_inc h_dec h_rate h_std h_steps h_threads]. do 6 (split; [known|]). split; [reflexivity|]. split; [exists 20%Z; split; [known|reflexivity]|].
  exists 2. split; [known|]. split; [split; [lra|apply IZR_lt; reflexivity]|]. split; [lia|]. split; intros; lra.
Qed.

(** an empty tree gives the defaults, and they are in range *)
Lemma base_empty : base_of empty = Ok base_default.
Proof.
  pose proof (base_make empty) as H. destruct (base_of empty) as [o| |]; [|exfalso; exact (H _ base_default_reads valid_default)|contradiction].
  f_equal. exact (base_fun _ _ _ (proj1 H) base_default_reads).
Qed.
Lemma rprop_empty : rprop_new_of empty = Ok rprop_default.
Proof.
  pose proof (rprop_make empty) as H. destruct (rprop_new_of empty) as [o| |]; [|exfalso; exact (H _ rprop_default_reads rprop_default_valid)|contradiction].
  f_equal. exact (rprop_fun _ _ _ (proj1 H) rprop_default_reads).
Qed.
Lemma bfgs_default_reads : bfgs_reads empty bfgs_default.
Proof. split; [exact base_default_reads|]. split; [exact ls_default_reads|]. split; [known|reflexivity]. Qed.
Lemma bfgs_empty : bfgs_new_of empty = Ok (mkBobj bfgs_default ls_default).
Proof.
  pose proof (bfgs_make empty) as H. destruct (bfgs_new_of empty) as [o| |]; [|exfalso|contradiction].
  - destruct o as [o l]. destruct H as [[H1 H2] _]. cbn in *. pose proof (bfgs_fun _ _ _ H1 bfgs_default_reads) as E. subst. reflexivity.
  - apply (H (mkBobj bfgs_default ls_default)); [split; [exact bfgs_default_reads|reflexivity]|exact bfgs_default_valid].
Qed.
Lemma hmc_empty : hmc_of empty = Ok hmc_default.
Proof.
  pose proof (hmc_make empty) as H. destruct (hmc_of empty) as [o| |]; [|exfalso; exact (H _ hmc_default_reads hmc_default_valid)|].
  - f_equal. exact (hmc_fun _ _ _ (proj1 H) hmc_default_reads).
  - exfalso. destruct H as (x & S1 & B). assert (x = 2) as -> by (eapply says_fun; [exact S1|known]).
    destruct B as [B|B]; [lra|]. assert (2 < IZR (2 ^ 64)) by (apply IZR_lt; reflexivity). lra.
Qed.
Lemma lm_empty : lmp_of empty = Ok lmp_default. Proof. reflexivity. Qed.
Lemma size_1 : size_of_double 1 = Ok 1%Z.
Proof.
  assert (1 < IZR (2 ^ 64)) by (apply IZR_lt; reflexivity).
  destruct (size_of_double 1) as [n| |] eqn:E; [| |apply size_of_double_ub in E; destruct E; lra].
  - apply size_of_double_ok in E. destruct E as (_ & _ & _ & B). specialize (B ltac:(lra)).
    assert (L : IZR n < IZR 2) by (replace (IZR 2) with 2 by reflexivity; lra). assert (U : IZR 0 < IZR n) by lra. apply lt_IZR in L, U. f_equal. lia.
  - exfalso; exact (size_of_double_not_throw _ E).
Qed.
Lemma mh_empty : mh_of empty = Ok mh_default.
Proof. unfold mh_of, mh_default, empty. cbn. unfold get; cbn. rewrite size_1. reflexivity. Qed.
Lemma opt2_empty : opt2_new_of empty None None = Ok (mkO2 opt2_default (mkPart None "sparse_cholesky") (mkPart None "levenberg_marquardt")).
Proof.
  unfold opt2_new_of, opt2_of, opt2_default, deprecated, get, empty. cbn.
  destruct (Req_EM_T (1/1000) (1/1000)) as [_|N]; [|exfalso; apply N; reflexivity]. reflexivity.
Qed.

(** ** what goes through *)
(* a line search with its smallest step above its largest *)
Definition odd_steps : tree := tree_of [("minStepLength", dbl_entry 60)].
Definition odd_ls : ls := mkLs (/ 10 ^ 4) (9/10) 50 60 (/ 10 ^ 14) 1 30 10 10.
Lemma odd_ls_read : ls_of odd_steps = Ok odd_ls.
Proof.
  unfold ls_of, odd_steps, ls_default, get. cbn [tree_of String.eqb Ascii.eqb Bool.eqb as_double dbl_entry bind c1 c2 maxStep minStep xtol step0 nWolfe1 nWolfe2 nZoom].
  change (mkLs _ _ _ _ _ _ _ _ _) with odd_ls. rewrite (proj2 (ls_check_iff odd_ls)); [reflexivity|].
  destruct ls_default_valid as (A & B & _ & D). unfold ls_valid. cbn in *. repeat split; try tauto; lra.
Qed.
(* an Rprop optimiser that starts with a step beyond its largest one and never shortens steps *)
Definition odd_rprop_tree : tree := tree_of [("initialDelta", dbl_entry 5); ("etaMinus", dbl_entry (11/10))].
Definition odd_rprop : rprop := mkRprop base_default (11/10) (12/10) 5 (/ 10 ^ 20) 1 true None RpropPlus.
Lemma odd_rprop_read : rprop_new_of odd_rprop_tree = Ok odd_rprop.
Proof.
  assert (V : rprop_valid odd_rprop).
  { split; [exact valid_default|]. unfold odd_rprop; cbn [etaMinus etaPlus delta0 deltaMin deltaMax]. split; [lra|]. split; [lra|]. split; [apply pow_pos|apply pow_small; lia]. }
  assert (Q : rprop_reads odd_rprop_tree odd_rprop).
  { split. { unfold base_reads, base_default; cbn. repeat split; try known; [exists 4%Z|exists 1%Z]; (split; [known|reflexivity]). }
    unfold odd_rprop; cbn. repeat split; known. }
  pose proof (rprop_make odd_rprop_tree) as H. destruct (rprop_new_of odd_rprop_tree) as [o| |]; [|exfalso; exact (H _ Q V)|contradiction].
  f_equal. exact (rprop_fun _ _ _ (proj1 H) Q).
Qed.
(* minus one thread *)
Definition minus_one : tree := tree_of [("numThreadsJacobian", int_entry (-1))].
Definition many_threads : base := mkBase (1/1000) 0 0 100 (2 ^ 64 - 1) 1.
Lemma many_threads_read : base_of minus_one = Ok many_threads.
Proof.
  unfold base_of, minus_one, get. cbn [tree_of String.eqb Ascii.eqb Bool.eqb as_double as_int int_entry bind base_default gradNorm deltaX deltaError maxIt nJac nErr].
  change (mkBase _ _ _ _ _ _) with many_threads. rewrite (proj2 (base_check_iff many_threads)); [reflexivity|exact valid_default].
Qed.
(* Optimizer2 with all criteria negative and a negative iteration limit *)
Definition odd_opt2_tree : tree := tree_of [("convergenceDeltaX", dbl_entry (-1)); ("maxIterations", int_entry (-5))].
Lemma odd_opt2_read : exists s, opt2_new_of odd_opt2_tree None None = Ok s /\ deltaX (o_base (oo_opts s)) = -1 /\ maxIt (o_base (oo_opts s)) = (-5)%Z.
Proof.
  unfold opt2_new_of, opt2_of, opt2_default, deprecated, get, odd_opt2_tree. cbn.
  destruct (Req_EM_T (1/1000) (1/1000)) as [_|N]; [|exfalso; apply N; reflexivity]. cbn. eexists. split; [reflexivity|]. split; reflexivity.
Qed.
(* both names of one option, with different values *)
Definition both_names : tree := tree_of [("convergenceDeltaJ", dbl_entry 5); ("convergenceDeltaError", dbl_entry (1/1000))].
Lemma both_names_read : exists s, opt2_new_of both_names None None = Ok s /\ deltaError (o_base (oo_opts s)) = 5.
Proof.
  unfold opt2_new_of, opt2_of, opt2_default, deprecated, get, both_names. cbn.
  destruct (Req_EM_T 5 (1/1000)) as [E|_]; [exfalso; lra|].
  destruct (Req_EM_T (1/1000) (1/1000)) as [_|N]; [|exfalso; apply N; reflexivity]. cbn. eexists. split; reflexivity.
Qed.
Lemma neg_sigma_read : mh_of (tree_of [("transitionKernelSigma", dbl_entry (-1))]) = Ok (mkMh (-1) 1).
Proof. unfold mh_of, mh_default. cbn. unfold get; cbn. rewrite size_1. reflexivity. Qed.
Lemma neg_lambda_read : lmp_of (tree_of [("lambdaInit", dbl_entry (-1))]) = Ok (mkLmp (-1) 3 2 3 2).
Proof. reflexivity. Qed.
Lemma neg_threads_ub : mh_of (tree_of [("nThreadsEvaluateLogDensity", dbl_entry (-1))]) = UB.
Proof. unfold mh_of, mh_default, get. cbn. rewrite (proj2 (size_of_double_ub (-1))); [reflexivity|left; lra]. Qed.
Definition bad_rprop : rprop := mkRprop base_default (-1) (12/10) (1/10) (/ 10 ^ 20) 1 true None RpropPlus.
Definition bad_base : base := mkBase 0 0 0 (-2) 0 0.
Lemma rprop_default_new : rprop_new rprop_default = Ok rprop_default.
Proof. unfold rprop_new. rewrite (proj2 (rprop_check_iff _) rprop_default_valid). reflexivity. Qed.
Lemma bfgs_default_new : bfgs_new bfgs_default = Ok (mkBobj bfgs_default ls_default).
Proof. unfold bfgs_new. rewrite (proj2 (bfgs_check_iff _) bfgs_default_valid). rewrite (proj2 (ls_check_iff (b_ls bfgs_default)) ls_default_valid). reflexivity. Qed.

Lemma step_range_refuted : ~ (forall t o, ls_of t = Ok o -> minStep o <= maxStep o).
Proof. intros H. specialize (H _ _ odd_ls_read). cbn in H. lra. Qed.
Lemma rprop_range_refuted : ~ (forall t o, rprop_new_of t = Ok o -> etaMinus o < 1 < etaPlus o /\ deltaMin o <= delta0 o <= deltaMax o).
Proof. intros H. specialize (H _ _ odd_rprop_read). cbn [etaMinus odd_rprop] in H. lra. Qed.
Lemma count_refuted : ~ (forall t b z, base_of t = Ok b -> says as_int t "numThreadsJacobian" 4%Z z -> nJac b = z).
Proof. intros H. specialize (H _ _ (-1)%Z many_threads_read ltac:(known)). discriminate H. Qed.
Lemma opt2_valid_refuted : ~ (forall t sv pl s, opt2_new_of t sv pl = Ok s -> base_valid (o_base (oo_opts s))).
Proof. intros H. destruct odd_opt2_read as (s & E & _ & M). specialize (H _ _ _ _ E). destruct H as (_ & _ & _ & _ & H). rewrite M in H. lia. Qed.
Lemma both_refuted : ~ (forall t sv pl, t "convergenceDeltaJ" <> None -> t "convergenceDeltaError" <> None -> opt2_new_of t sv pl = Throw).
Proof.
  intros H. destruct both_names_read as (s & E & _). specialize (H both_names None None). rewrite E in H. assert (Ok s = Throw) by (apply H; discriminate). discriminate.
Qed.
Lemma sigma_refuted : ~ (forall t o, mh_of t = Ok o -> 0 < m_sigma o).
Proof. intros H. specialize (H _ _ neg_sigma_read). cbn in H. lra. Qed.
Lemma lambda_refuted : ~ (forall t o, lmp_of t = Ok o -> 0 < lambda0 o).
Proof. intros H. specialize (H _ _ neg_lambda_read). cbn in H. lra. Qed.
Lemma setters_refuted :
  ~ (forall o s ops, rprop_new o = Ok s -> rprop_valid (fold_left rprop_do ops s)) /\
  ~ (forall o s ops, bfgs_new o = Ok s -> bfgs_valid (bo_opts (fold_left bfgs_do ops s))) /\
  ~ (forall o, hmc_valid (ho_opts (hmc_new o))).
Proof.
  split; [|split].
  - intros H. specialize (H _ _ [RSet bad_rprop] rprop_default_new). cbn [fold_left rprop_do] in H. destruct H as (_ & H & _). cbn [etaMinus bad_rprop] in H. lra.
  - intros H. specialize (H _ _ [BSetBase bad_base] bfgs_default_new). cbn [fold_left bfgs_do] in H. destruct H as ((_ & _ & _ & _ & H) & _). cbn in H. lia.
  - intros H. specialize (H (mkHmc (-1) 1 1 1 1 1 1 1 1)). destruct H as (H & _). cbn in H. lra.
Qed.
Definition gn : part := mkPart (Some 1%nat) "gauss_newton".
Lemma parts_refuted : ~ (forall o ops, in_step (fold_left opt2_do ops (opt2_new o))).
Proof.
  intros H. specialize (H opt2_default [OSet (mkOpt2 (o_base opt2_default) false false 0 None (Some gn))]). cbn [fold_left opt2_do] in H.
  destruct H as (_ & _ & _ & H & _). destruct (H gn eq_refl) as [E|(E & _)]; vm_compute in E; discriminate E.
Qed.
(* the standard deviation of the momentum has a default but no key; nor have the Rprop method and the gradient norm of Optimizer2 *)
Lemma every_option_refuted :
  ~ (forall t o, hmc_of t = Ok o -> says as_double t "standardDeviationMomentum" 1 (h_std o)) /\
  ~ (forall t sv pl s, opt2_new_of t sv pl = Ok s -> says as_double t "convergenceGradientNorm" (1/1000) (gradNorm (o_base (oo_opts s)))).
Proof.
  split.
  - intros H. set (t := tree_of [("standardDeviationMomentum", dbl_entry 7)]).
    assert (Q : hmc_reads t hmc_default).
    { unfold hmc_reads, hmc_default; cbn [h_step0 h_min h_max h_inc h_dec h_rate h_std h_steps h_threads]. do 6 (split; [known|]). split; [reflexivity|]. split; [exists 20%Z; split; [known|reflexivity]|].
      exists 2. split; [known|]. split; [split; [lra|apply IZR_lt; reflexivity]|]. split; [lia|]. split; intros; lra. }
    pose proof (hmc_make t) as M. destruct (hmc_of t) as [o| |] eqn:E.
    + specialize (H _ _ E). assert (h_std o = 7) by (eapply says_fun; [exact H|known]). destruct M as [(_ & _ & _ & _ & _ & _ & S1 & _) _]. lra.
    + exact (M _ Q hmc_default_valid).
    + destruct M as (x & S1 & B). assert (x = 2) as -> by (eapply says_fun; [exact S1|known]).
      destruct B as [B|B]; [lra|]. assert (2 < IZR (2 ^ 64)) by (apply IZR_lt; reflexivity). lra.
  - intros H. set (t := tree_of [("convergenceGradientNorm", dbl_entry 7)]).
    assert (E : exists s, opt2_new_of t None None = Ok s /\ gradNorm (o_base (oo_opts s)) = 1/1000).
    { unfold opt2_new_of, opt2_of, opt2_default, deprecated, get, t. cbn. destruct (Req_EM_T (1/1000) (1/1000)) as [_|N]; [|exfalso; apply N; reflexivity]. cbn. eexists. split; reflexivity. }
    destruct E as (s & E & G). specialize (H _ _ _ _ E). assert (gradNorm (o_base (oo_opts s)) = 7) by (eapply says_fun; [exact H|known]). lra.
Qed.

(** a configuration file for BFGS with a line search section *)
Definition file_tree : tree := tree_of [("maxIterations", int_entry 7); ("linesearch/xtol", dbl_entry (1/2)); ("useDenseJacobianContainer", mkEntry None None (Some false)); ("comment", mkEntry None None None)].
Definition file_opts : bfgs := mkBfgs (mkBase (1/1000) 0 0 7 4 1) (mkLs (/ 10 ^ 4) (9/10) 50 (/ 10 ^ 8) (1/2) 1 30 10 10) false None.
Lemma file_valid : bfgs_valid file_opts.
Proof.
  split. - unfold base_valid; cbn. split; [lra|]. split; [lra|]. split; [lra|]. split; [lra|lia].
  - destruct ls_default_valid as (A & B & C & _ & D). unfold ls_valid; cbn in *. repeat split; try tauto; lra.
Qed.
Lemma file_reads : bfgs_reads file_tree file_opts.
Proof.
  split. { unfold base_reads; cbn. repeat split; try known; [exists 4%Z|exists 1%Z]; (split; [known|reflexivity]). }
  split; [|split; [known|reflexivity]].
  unfold ls_reads; cbn [b_ls file_opts c1 c2 maxStep minStep xtol step0 nWolfe1 nWolfe2 nZoom]. do 6 (split; [known|]). split; [exists 30%Z|split; exists 10%Z]; (split; [known|reflexivity]).
Qed.
(** a file that is refused *)
Definition bad_tree : tree := tree_of [("maxDelta", dbl_entry 0)].
Lemma bad_refused : rprop_new_of bad_tree = Throw.
Proof.
  pose proof (rprop_make bad_tree) as H. destruct (rprop_new_of bad_tree) as [o| |]; [|reflexivity|contradiction].
  destruct H as [(_ & _ & _ & _ & M & X & _) (_ & _ & _ & V)]. assert (deltaMax o = 0) by (eapply says_fun; [exact X|known]). lra.
Qed.
