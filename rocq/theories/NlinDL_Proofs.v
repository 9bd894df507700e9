(** * Nonlinear least-squares problems: what the status DX of a dog-leg run says *)
From Coq Require Import Reals Lra Lia Arith List Bool ZArith.
From Verif Require Import Lib_Ring Lib_Real Policy_Model Policy_Spec Policy_Proofs Policy_Proofs2 Lin_Model Lin_Proofs Lin_Proofs2 LinDL_Model Nlin_Model Nlin_Spec Nlin_Proofs NlinDL_Model.
From Verif Require Optimizer2_Model.
Open Scope R_scope.

Lemma norm_maxabs : forall n v b, maxabs n v <= b -> norm n v <= sqrt (INR n) * b.
Proof.
  intros n v b B. pose proof (maxabs_dot n v) as D. pose proof (maxabs_nonneg n v) as N. pose proof (pos_INR n) as P.
  unfold norm. rewrite <- (sqrt_square b) by lra. rewrite <- sqrt_mult by nra. apply sqrt_le_1_alt. eapply Rle_trans; [exact D|]. apply Rmult_le_compat_l; auto. nra.
Qed.

(* a call that succeeds has not noticed a failing solver *)
Lemma dl_solve_ok : forall n s dx J pf sys cs d s', dl_solve n s dx (mkCall J pf sys cs) = DLok true d s' ->
  dl_solve n s dx (mkCall J pf sys (true, snd cs)) = DLok true d s' /\ (pf = false -> d_type s' <> TSD -> fst cs = true).
Proof.
  intros n s dx J pf sys cs d s' E. unfold dl_solve in *. cbv zeta in *. cbn [cpf cfresh csolve cJ fst snd negb] in *.
  destruct (negb pf && (if Req_EM_T (rJtJr (if pf then d_sys s else sys)) 0 then true else false)); [discriminate|].
  change (base_enter (d_base s) (mkCall J pf sys (true, snd cs))) with (base_enter (d_base s) (mkCall J pf sys cs)).
  destruct (rle _ _ && negb _) eqn:A.
  - split; [exact E|]. injection E as <- <-. cbn [d_type]. congruence.
  - destruct (negb pf && negb (fst cs)) eqn:B; [discriminate|]. rewrite andb_false_r. split; [exact E|]. intros -> _. destruct (fst cs); auto.
Qed.
Lemma dl_first_type : forall n s dx J sys cs d s', bfirst (d_base s) = true -> d_delta s = 0 -> dl_solve n s dx (mkCall J false sys cs) = DLok true d s' -> d_type s' <> TSD.
Proof.
  intros n s dx J sys cs d s' F D E. unfold dl_solve in E. cbv zeta in E. cbn [cpf cfresh csolve cJ fst snd negb andb base_enter bfirst] in E. rewrite F, D in E.
  destruct (Req_EM_T (rJtJr sys) 0); [discriminate|]. destruct (Req_EM_T 0 0); [|lra]. cbn [negb] in E. rewrite andb_false_r in E.
  destruct (negb (fst cs)); [discriminate|]. destruct (rle _ _); [injection E as <- <-; discriminate|]. destruct (dl_beta _ _ _); [|discriminate]. injection E as <- <-. discriminate.
Qed.

Section Run.
  Variables (X : Type) (move : X -> vec R -> X) (n m : nat) (e : X -> vec R) (Jac : X -> mat R) (solver : mat R -> R -> vec R -> option (vec R)).
  Hypothesis So : solves n m solver.
  Variables (opt : ropt) (s0 : dl).
  Notation po := (n_dog_leg X n m e Jac solver s0).
  Notation eqn := (eqn X n m e Jac).

  (* after a call at the state xp with [fails] rejected steps so far: the step's kind and the Gauss-Newton step that the policy holds *)
  Definition held (s : dl) (d : vec R) (xp : X) (fails : Prop) : Prop :=
    bfirst (d_base s) = false /\ dl_inv n s d /\ exists g xo, d_gn s = Some g /\ eqn 0 xo g /\ (d_type s <> TSD -> xo = xp \/ fails).
  Definition dinv (l : nst X po) : Prop := n_lsf X po l = true \/ n_pol X po l = None \/
    ((0 <= n_fail X po l)%Z /\ (n_pf X po l = true -> (0 < n_fail X po l)%Z) /\ exists s nan, n_pol X po l = Some (s, nan) /\
      ((bfirst (d_base s) = true /\ d_delta s = 0 /\ n_pf X po l = false /\ n_mdx X po l = o_dx opt + 1) \/
       (n_mdx X po l = maxabs n (n_d X po l) /\ exists xp, (n_x X po l = xp \/ n_x X po l = move xp (n_d X po l)) /\ held s (n_d X po l) xp (0 < n_fail X po l)%Z))).

  Lemma dl_call : forall l s nan ok d q, n_pol X po l = Some (s, nan) ->
    (n_pf X po l = true -> (0 < n_fail X po l)%Z) ->
    ((bfirst (d_base s) = true /\ d_delta s = 0 /\ n_pf X po l = false) \/ (exists xp, held s (n_d X po l) xp (0 < n_fail X po l)%Z)) ->
    n_dl_call X n m e Jac solver (n_pol X po l) (n_J X po l) (n_pf X po l) (n_x X po l) (n_d X po l) = (ok, d, q) ->
    ok = false \/ q = None \/ exists s' nan', q = Some (s', nan') /\ held s' d (n_x X po l) (0 < n_fail X po l)%Z.
  Proof.
    intros l s nan ok d q Ep Pf I C. rewrite Ep in C. unfold n_dl_call in C. destruct (nan && n_pf X po l); [injection C as <- <- <-; auto|].
    set (x := n_x X po l) in *. set (pf := n_pf X po l) in *. set (dx := n_d X po l) in *. set (J := n_J X po l) in *.
    unfold dl_solve_on in C. cbn [cpf cfresh csolve cJ] in C.
    assert (bfirst (d_base s) = true -> d_delta s = 0 /\ pf = false) as H1. { intros F. destruct I as [(_ & ? & ?)|(xp & F' & _)]; [auto|congruence]. }
    assert (bfirst (d_base s) = false -> dl_inv n s dx) as H2. { intros F. destruct I as [(F' & _)|(xp & _ & ? & _)]; [congruence|auto]. }
    destruct (n_reply X m e Jac solver x 0 dx) as [so gn] eqn:R.
    destruct (negb pf && (if Req_EM_T (rJtJr (n_system X n m e Jac x)) 0 then true else false) &&
      (if Req_EM_T (vdot n (rhs (n_system X n m e Jac x)) (rhs (n_system X n m e Jac x))) 0 then true else false)) eqn:Z.
    - cbv zeta in C. cbn [fst snd base_enter bfirst] in C.
      set (de := if bfirst (d_base s) then d_delta s else _) in C.
      destruct so; cbn [negb] in C; [|injection C as <- <- <-; auto].
      destruct (Req_EM_T de 0) as [|Nz]; [injection C as <- <- <-; auto|]. destruct (rle (norm n gn) de) eqn:Le; [|injection C as <- <- <-; auto]. apply rle_true in Le.
      injection C as <- <- <-. right. right. eexists. eexists. split; [reflexivity|]. split; [reflexivity|]. pose proof (norm_pos n gn) as Np. split.
      + constructor; cbn [d_delta d_sdn d_sd d_gn d_gnn d_dx]; [lra| |eauto|auto|].
        * destruct (bfirst (d_base s)) eqn:F; [exfalso; apply Nz; unfold de; apply H1; auto|]. destruct (H2 eq_refl). auto.
        * unfold on_path. cbn [d_type d_gn d_delta]. auto.
      + cbn [d_gn d_type]. exists gn, x. split; auto. split; auto. eapply reply_eqn; eauto.
    - destruct (dl_solve n s dx (mkCall J pf (n_system X n m e Jac x) (so, gn))) as [ok' d' s'| |] eqn:S; injection C as <- <- <-; auto.
      destruct ok'; auto. right. right. eexists. eexists. split; [reflexivity|].
      pose proof (dl_solve_ok _ _ _ _ _ _ _ _ _ S) as [S' Fs]. cbn [snd fst] in S', Fs.
      destruct (dl_step_inv n s dx (mkCall J pf (n_system X n m e Jac x) (true, gn)) true d' s' H1 H2 eq_refl S') as (_ & K1 & K2 & _ & _ & K3 & K4 & K5). cbn [cpf csolve snd] in *.
      split; auto. split; auto.
      destruct pf eqn:Epf.
      + destruct (K3 eq_refl) as [K6 _]. destruct I as [(_ & _ & ?)|(xp & _ & _ & g & xo & G1 & G2 & G3)]; [discriminate|]. exists g, xo. rewrite K6. split; auto.
      + destruct (match d_type s' with TSD => true | _ => false end) eqn:T.
        * assert (d_type s' = TSD) as T' by (destruct (d_type s'); congruence). destruct I as [(F & De & _)|(xp & _ & _ & g & xo & G1 & G2 & G3)].
          { exfalso. exact (dl_first_type _ _ _ _ _ _ _ _ F De S T'). }
          exists g, xo. rewrite (K5 T'). split; [auto|]. split; [auto|]. congruence.
        * assert (d_type s' <> TSD) as T' by (intros W; rewrite W in T; discriminate). exists gn, x. split; [auto|]. split; [|auto].
          rewrite (Fs eq_refl T') in R. eapply reply_eqn; eauto.
  Qed.

  Lemma held_weaker : forall s d xp (A B : Prop), (A -> B) -> held s d xp A -> held s d xp B.
  Proof. intros s d xp A B W (H1 & H2 & g & xo & H3 & H4 & H5). split; auto. split; auto. exists g, xo. split; auto. split; auto. intros T. destruct (H5 T); auto. Qed.

  Lemma dinv_step : forall l, dinv l -> dinv (n_iteration X move n m e po l).
  Proof.
    intros l I. unfold n_iteration. destruct (np_solve X po (n_pol X po l) (n_J X po l) (n_pf X po l) (n_x X po l) (n_d X po l)) as [[ok d] q] eqn:C.
    destruct ok; [|left; reflexivity]. cbn [np_reverts n_dog_leg].
    destruct I as [I|[I|(I0 & I1 & s & nan & I2 & I3)]].
    - destruct (rlt _ 0); left; exact I.
    - cbn [np_solve n_dog_leg] in C. rewrite I in C. cbn in C. injection C as <- <-. destruct (rlt _ 0); right; left; reflexivity.
    - cbn [np_solve n_dog_leg] in C. destruct (dl_call l s nan true d q I2 I1) as [D|[D|(s' & nan' & D & Hl)]]; auto.
      + destruct I3 as [(A & B & E & _)|(_ & xp & _ & A)]; eauto.
      + discriminate.
      + subst q. destruct (rlt _ 0); right; left; reflexivity.
      + destruct (rlt _ 0); right; right; cbn [n_fail n_pf n_pol n_mdx n_x n_d].
        * split; [lia|]. split; [lia|]. exists s', nan'. split; auto. right. split; auto. exists (n_x X po l). split; auto. eapply held_weaker; [|exact Hl]. lia.
        * split; [lia|]. split; [discriminate|]. exists s', nan'. split; auto. right. split; auto. exists (n_x X po l). split; auto.
  Qed.

  Theorem dl_dx : forall x l s nan, n_optimize X move n m e po opt x = Some l -> n_status X po opt l = Optimizer2_Model.DX -> n_pol X po l = Some (s, nan) ->
    exists xp d, maxabs n d <= o_dx opt /\ (n_x X po l = xp \/ n_x X po l = move xp d) /\
      (d_delta s <= sqrt (INR n) * o_dx opt \/
       exists xo, (xo = xp \/ (0 < n_fail X po l)%Z) /\ forall L, entries_below n m Jac xo L -> forall p, (p < n)%nat -> Rabs (gradient m e Jac xo p) <= INR n * L * o_dx opt).
  Proof.
    intros x l s nan R S Q. apply dx_facts in S as [S1 S2]. unfold n_optimize in R.
    apply (n_loop_ind X move n m e opt po dinv) in R; [|intros; apply dinv_step; auto|].
    - destruct R as [R|[R|(_ & _ & s' & nan' & E & R)]]; [congruence|congruence|]. rewrite Q in E. injection E as <- <-.
      destruct R as [(_ & _ & _ & R)|(R & xp & Xp & _ & Iv & g & xo & G1 & G2 & G3)]; [lra|]. rewrite R in S2. exists xp, (n_d X po l). split; auto. split; auto.
      pose proof (norm_maxabs n _ _ S2) as Nm. destruct Iv as [V1 V2 V3 V4 V5]. unfold on_path in V5. destruct (d_type s); [contradiction| | |].
      all: try (left; destruct V5 as ((V5 & V6) & V7); rewrite V7, norm_scale, <- V2 in Nm by (apply Rmult_le_pos; [lra|apply Rlt_le, Rinv_0_lt_compat; lra]); replace (d_delta s / d_sdn s * d_sdn s) with (d_delta s) in Nm by (field; lra); exact Nm).
      all: try (left; destruct V5 as (g' & be & _ & _ & V5 & _); rewrite <- V5; exact Nm).
      right. destruct V5 as [V5 _]. rewrite V5 in G1. injection G1 as <-. exists xo. split; [apply G3; discriminate|]. intros L B p Hp.
      pose proof (grad_bound X n m e Jac 0 xo _ _ L G2 S2 B p Hp). lra.
    - right. right. cbn. split; [lia|]. split; [discriminate|]. eexists. eexists. split; [reflexivity|]. left. auto.
  Qed.
End Run.
