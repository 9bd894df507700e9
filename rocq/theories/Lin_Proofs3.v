(** * Linear least-squares problems: the minimum, and the statements about runs *)
From Coq Require Import Reals Lra Lia Arith List Bool ZArith.
From Verif Require Import Lib_Ring Lib_Real Policy_Model Policy_Spec Lin_Model Lin_Spec Lin_Proofs Lin_Proofs2.
From Verif Require Optimizer2_Model.
Open Scope R_scope.

Section End.
  Variables (n m : nat) (A : mat R) (b : vec R) (mu : R) (solver : R -> vec R -> option (vec R)) (opt : ropt).
  Hypothesis Mg : margin n m A mu.
  Hypothesis So : solver_ok n m A solver.
  Notation cost := (cost n m A b).

  Lemma near : forall xs x, stat n m A b xs -> mu * vdot n (vsub x xs) (vsub x xs) <= cost x - cost xs.
  Proof. intros xs x Ss. rewrite (excess n m A b xs x Ss). apply Mg. Qed.
  Lemma minimal_stat : forall x, minimal n m A b x -> stat n m A b x.
  Proof.
    intros x M. destruct (solution n m A b solver So) as (xs & Ss). pose proof (near xs x Ss) as N. specialize (M xs). destruct Mg as (M0 & _). pose proof (dot_sq n (vsub x xs)) as Q.
    assert (Z : vdot n (vsub x xs) (vsub x xs) = 0). { destruct (Req_dec (vdot n (vsub x xs) (vsub x xs)) 0) as [Z|Z]; auto. assert (Z1 : 0 < vdot n (vsub x xs) (vsub x xs)) by lra. pose proof (Rmult_lt_0_compat _ _ M0 Z1). lra. }
    intros p Hp. rewrite (g_ext n m A b x xs); [apply Ss; auto|]. intros i Hi. pose proof (dot_zero n _ Z i Hi) as E. unfold vsub in E. cbn in E. lra.
  Qed.
  Lemma one_minimum : (exists x, minimal n m A b x) /\ forall x z, minimal n m A b x -> minimal n m A b z -> veq n x z.
  Proof.
    split. { destruct (solution n m A b solver So) as (xs & Ss). exists xs. apply stat_minimal; auto. }
    intros x z Mx Mz. pose proof (near z x (minimal_stat z Mz)) as N. specialize (Mx z). destruct Mg as (M0 & _). pose proof (dot_sq n (vsub x z)) as Q.
    assert (Z : vdot n (vsub x z) (vsub x z) = 0). { destruct (Req_dec (vdot n (vsub x z) (vsub x z)) 0) as [Z|Z]; auto. assert (Z1 : 0 < vdot n (vsub x z) (vsub x z)) by lra. pose proof (Rmult_lt_0_compat _ _ M0 Z1). lra. }
    intros i Hi. pose proof (dot_zero n _ Z i Hi) as E. unfold vsub in E. cbn in E. lra.
  Qed.
  Hypothesis Oo : opt_ok opt.
  Lemma solved_newton : forall po, newton n m A b po -> forall x, solved_exactly n m A b opt po x.
  Proof. intros po N x. apply (newton_run n m A b mu opt Mg Oo po N x). Qed.
  Lemma solved_lm : forall P, lm_params_ok P -> forall x xs, minimal n m A b xs -> solved_nearly n m A b mu opt (levenberg_marquardt n m A b solver P) (damping P) xs x.
  Proof.
    intros P Po x xs Mx. destruct (lm_run n m A b mu solver opt Mg So Oo P Po xs x (minimal_stat xs Mx)) as (l & E & H1 & H2 & H3 & H4 & H5).
    exists l. split; auto. split; auto. split; auto. split; auto. split; auto. split; [apply near; apply minimal_stat; auto|]. exact H5.
  Qed.
End End.
