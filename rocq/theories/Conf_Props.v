(** * C83: configuration from property trees, setters, serialization *)
From Coq Require Import String Ascii ZArith Reals List Bool Lra.
From Verif Require Import Lib_Res Conf_Model Conf_Spec Conf_Proofs Conf_Proofs2 Conf_Toy.
Import ListNotations.
Local Open Scope string_scope.
Local Open Scope R_scope.

(** Rprop: every option is what the tree says under its key, or its default; out-of-range or unreadable options are refused, and nothing else is *)
Theorem C83_rprop : reads_and_checks rprop_new_of rprop_reads rprop_valid.
Proof. exact rprop_make. Qed.
Print Assumptions C83_rprop.
Example C83_rprop_case : rprop_new_of odd_rprop_tree = Ok odd_rprop /\ rprop_new_of bad_tree = Throw.
Proof. exact (conj odd_rprop_read bad_refused). Qed.

(** BFGS: likewise, and its line search has the options of the section "linesearch" *)
Theorem C83_bfgs : reads_and_checks bfgs_new_of (fun t s => bfgs_reads t (bo_opts s) /\ bo_search s = b_ls (bo_opts s)) (fun s => bfgs_valid (bo_opts s)).
Proof. exact bfgs_make. Qed.
Print Assumptions C83_bfgs.
Example C83_bfgs_case : bfgs_reads file_tree file_opts /\ bfgs_valid file_opts.
Proof. exact (conj file_reads file_valid). Qed.

(** hybrid Monte Carlo: likewise, except that a number of threads beyond the range of size_t is undefined behaviour *)
Theorem C83_hmc : forall t, match hmc_of t with
    | Ok o => hmc_reads t o /\ hmc_valid o
    | Throw => forall o, hmc_reads t o -> ~ hmc_valid o
    | UB => exists x, says as_double t "nThreads" 2 x /\ (x <= -1 \/ IZR (2 ^ 64) <= x) end.
Proof. exact hmc_make. Qed.
Print Assumptions C83_hmc.
Example C83_hmc_case : hmc_of empty = Ok hmc_default. Proof. exact hmc_empty. Qed.

(** Metropolis-Hastings and Levenberg-Marquardt: read, not checked *)
Theorem C83_unchecked_partial :
  (forall t, match mh_of t with
    | Ok o => mh_reads t o
    | Throw => forall o, ~ mh_reads t o
    | UB => exists x, says as_double t "nThreadsEvaluateLogDensity" 1 x /\ (x <= -1 \/ IZR (2 ^ 64) <= x) end) /\
  (forall t, match lmp_of t with Ok o => lm_reads t o | Throw => forall o, ~ lm_reads t o | UB => False end).
Proof. exact (conj mh_make lm_make). Qed.
Print Assumptions C83_unchecked_partial.
Example C83_unchecked_case : mh_of (tree_of [("transitionKernelSigma", dbl_entry (-1))]) = Ok (mkMh (-1) 1) /\ mh_of (tree_of [("nThreadsEvaluateLogDensity", dbl_entry (-1))]) = UB.
Proof. exact (conj neg_sigma_read neg_threads_ub). Qed.

(** Optimizer2: read, with the old names of two options, as long as a tree does not use both names of one; not checked *)
Theorem C83_optimizer2_partial : forall t sv pl,
  (t "convergenceDeltaJ" = None \/ t "convergenceDeltaError" = None) -> (t "nThreads" = None \/ t "numThreadsJacobian" = None) ->
  match opt2_new_of t sv pl with
  | Ok s => opt2_reads t (oo_opts s) /\ o_solver (oo_opts s) = sv /\ o_policy (oo_opts s) = pl
  | Throw => forall o, ~ opt2_reads t o
  | UB => False end.
Proof. exact opt2_make. Qed.
Print Assumptions C83_optimizer2_partial.
Example C83_optimizer2_case : odd_opt2_tree "convergenceDeltaJ" = None /\ odd_opt2_tree "nThreads" = None /\
  exists s, opt2_new_of odd_opt2_tree None None = Ok s /\ deltaX (o_base (oo_opts s)) = -1 /\ maxIt (o_base (oo_opts s)) = (-5)%Z.
Proof. exact (conj eq_refl (conj eq_refl odd_opt2_read)). Qed.

(** an empty tree gives the documented defaults, and they are in range *)
Theorem C83_defaults :
  (rprop_new_of empty = Ok rprop_default /\ rprop_valid rprop_default) /\
  (bfgs_new_of empty = Ok (mkBobj bfgs_default ls_default) /\ bfgs_valid bfgs_default) /\
  (hmc_of empty = Ok hmc_default /\ hmc_valid hmc_default) /\
  mh_of empty = Ok mh_default /\ lmp_of empty = Ok lmp_default /\
  opt2_new_of empty None None = Ok (mkO2 opt2_default (mkPart None "sparse_cholesky") (mkPart None "levenberg_marquardt")).
Proof. exact (conj (conj rprop_empty rprop_default_valid) (conj (conj bfgs_empty bfgs_default_valid) (conj (conj hmc_empty hmc_default_valid) (conj mh_empty (conj lm_empty opt2_empty))))). Qed.
Print Assumptions C83_defaults.

(** options saved to an archive are restored, all of them, whatever they are loaded into *)
Theorem C83_serialization : restores base_members /\ restores ls_members /\ restores rprop_members /\ restores bfgs_members.
Proof. exact (conj base_restores (conj ls_restores (conj rprop_restores bfgs_restores))). Qed.
Print Assumptions C83_serialization.
Example C83_serialization_case : save bfgs_members file_opts <> save bfgs_members bfgs_default.
Proof. intros H. apply (f_equal (fun l => nth 15 l ("", ABool true))) in H. vm_compute in H. discriminate H. Qed.

(** an archive with other members, in another order, or cut short, is refused *)
Theorem C83_other_archive : forall O (l : list (member O)) a o, map mb_name l <> firstn (length l) (map fst a) -> load l a o = Throw.
Proof. exact load_other. Qed.
Print Assumptions C83_other_archive.
Example C83_other_archive_case : let a := removelast (save bfgs_members bfgs_default) in (0 < length a)%nat /\ map mb_name bfgs_members <> firstn (length bfgs_members) (map fst a).
Proof. cbv zeta. split; [vm_compute; auto with arith|]. intros H. apply (f_equal (@length string)) in H. vm_compute in H. discriminate H. Qed.

(** BFGS: after any history of setters the line search works with the options the optimiser reports; the last options set are in force, and setting the base options changes nothing else *)
Theorem C83_bfgs_in_force : forall o s ops, bfgs_new o = Ok s ->
  bo_search (fold_left bfgs_do ops s) = b_ls (bo_opts (fold_left bfgs_do ops s)) /\
  (forall o', bo_opts (fold_left bfgs_do (ops ++ [BSet o'])%list s) = o') /\
  (forall b, let s1 := fold_left bfgs_do ops s in let s2 := fold_left bfgs_do (ops ++ [BSetBase b])%list s in
     b_base (bo_opts s2) = b /\ b_ls (bo_opts s2) = b_ls (bo_opts s1) /\ b_dense (bo_opts s2) = b_dense (bo_opts s1) /\ b_reg (bo_opts s2) = b_reg (bo_opts s1)).
Proof. exact (fun o s ops E => conj (bfgs_search o s ops E) (conj (bfgs_last s ops) (bfgs_last_base s ops))). Qed.
Print Assumptions C83_bfgs_in_force.
Example C83_bfgs_in_force_case : bfgs_new bfgs_default = Ok (mkBobj bfgs_default ls_default). Proof. exact bfgs_default_new. Qed.

(** Rprop: the last options set are in force, and setting the base options changes nothing else *)
Theorem C83_rprop_in_force : forall s ops,
  (forall o, fold_left rprop_do (ops ++ [RSet o])%list s = o) /\
  (forall b, let s1 := fold_left rprop_do ops s in fold_left rprop_do (ops ++ [RSetBase b])%list s =
     mkRprop b (etaMinus s1) (etaPlus s1) (delta0 s1) (deltaMin s1) (deltaMax s1) (r_dense s1) (r_reg s1) (r_method s1)).
Proof. exact rprop_last. Qed.
Print Assumptions C83_rprop_in_force.
Example C83_rprop_in_force_case : delta0 (fold_left rprop_do [RSet odd_rprop; RSetBase base_default] rprop_default) = 5. Proof. reflexivity. Qed.

(** hybrid Monte Carlo: setting options restarts the step length *)
Theorem C83_hmc_in_force : forall o l, let s := fold_left hmc_set l (hmc_new o) in ho_step s = h_step0 (ho_opts s) /\ ho_opts s = last l o.
Proof. exact hmc_step. Qed.
Print Assumptions C83_hmc_in_force.
Example C83_hmc_in_force_case : h_step0 hmc_default = 1/10. Proof. reflexivity. Qed.

(** Optimizer2: the solver and the policy in use are those of the options after a constructor or initialize(), and stay so while no other options are set *)
Theorem C83_parts_partial :
  (forall o ops, (forall o', ~ In (OSet o') ops) -> in_step (fold_left opt2_do ops (opt2_new o))) /\
  (forall s ops, in_step (fold_left opt2_do (ops ++ [OInit])%list s)).
Proof. exact (conj no_set_in_step init_in_step). Qed.
Print Assumptions C83_parts_partial.
Example C83_parts_case : oo_policy (opt2_new (mkOpt2 base_default false false 0 (Some (mkPart (Some 3%nat) "sparse_qr")) None)) = mkPart None "dog_leg".
Proof. reflexivity. Qed.

(** the options of Rprop and BFGS stay in range while the setters are given options in range *)
Theorem C83_stays_valid_partial :
  (forall o s ops, rprop_new o = Ok s -> Forall rprop_arg ops -> rprop_valid (fold_left rprop_do ops s)) /\
  (forall o s ops, bfgs_new o = Ok s -> Forall bfgs_arg ops -> bfgs_valid (bo_opts (fold_left bfgs_do ops s))).
Proof. exact (conj rprop_stays bfgs_stays). Qed.
Print Assumptions C83_stays_valid_partial.
Example C83_stays_valid_case : rprop_new rprop_default = Ok rprop_default /\ Forall rprop_arg [RSetBase base_default].
Proof. exact (conj rprop_default_new (Forall_cons (RSetBase base_default) valid_default (Forall_nil rprop_arg))). Qed.

(** not so: the setters, and the constructor of the hybrid Monte Carlo sampler, do not check *)
Theorem C83_setters_refuted :
  ~ (forall o s ops, rprop_new o = Ok s -> rprop_valid (fold_left rprop_do ops s)) /\
  ~ (forall o s ops, bfgs_new o = Ok s -> bfgs_valid (bo_opts (fold_left bfgs_do ops s))) /\
  ~ (forall o, hmc_valid (ho_opts (hmc_new o))).
Proof. exact setters_refuted. Qed.
Print Assumptions C83_setters_refuted.

(** not so: Optimizer2 checks what it reads; a limit of -5 iterations and a negative threshold are accepted *)
Theorem C83_optimizer2_refuted : ~ (forall t sv pl s, opt2_new_of t sv pl = Ok s -> base_valid (o_base (oo_opts s))).
Proof. exact opt2_valid_refuted. Qed.
Print Assumptions C83_optimizer2_refuted.

(** not so: using both names of one option throws, as the message says; when one value equals the default the other silently wins *)
Theorem C83_both_names_refuted : ~ (forall t sv pl, t "convergenceDeltaJ" <> None -> t "convergenceDeltaError" <> None -> opt2_new_of t sv pl = Throw).
Proof. exact both_refuted. Qed.
Print Assumptions C83_both_names_refuted.

(** not so: the policy given with setOptions is used at once *)
Theorem C83_parts_refuted : ~ (forall o ops, in_step (fold_left opt2_do ops (opt2_new o))).
Proof. exact parts_refuted. Qed.
Print Assumptions C83_parts_refuted.

(** not so: accepted options make sense together *)
Theorem C83_ranges_refuted :
  ~ (forall t o, ls_of t = Ok o -> minStep o <= maxStep o) /\
  ~ (forall t o, rprop_new_of t = Ok o -> etaMinus o < 1 < etaPlus o /\ deltaMin o <= delta0 o <= deltaMax o) /\
  ~ (forall t o, mh_of t = Ok o -> 0 < m_sigma o) /\
  ~ (forall t o, lmp_of t = Ok o -> 0 < lambda0 o).
Proof. exact (conj step_range_refuted (conj rprop_range_refuted (conj sigma_refuted lambda_refuted))). Qed.
Print Assumptions C83_ranges_refuted.

(** not so: a number of threads is the number in the tree; -1 becomes 2^64-1 *)
Theorem C83_counts_refuted : ~ (forall t b z, base_of t = Ok b -> says as_int t "numThreadsJacobian" 4%Z z -> nJac b = z).
Proof. exact count_refuted. Qed.
Print Assumptions C83_counts_refuted.

(** not so: every option can be set from a tree *)
Theorem C83_every_option_refuted :
  ~ (forall t o, hmc_of t = Ok o -> says as_double t "standardDeviationMomentum" 1 (h_std o)) /\
  ~ (forall t sv pl s, opt2_new_of t sv pl = Ok s -> says as_double t "convergenceGradientNorm" (1/1000) (gradNorm (o_base (oo_opts s)))).
Proof. exact every_option_refuted. Qed.
Print Assumptions C83_every_option_refuted.
