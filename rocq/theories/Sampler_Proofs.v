From Coq Require Import ZArith Reals List Bool Lia Lra FunctionalExtensionality.
From Flocq Require Import Core BinarySingleNaN.
From Verif Require Import Lib_Ring Lib_Real Lib_Float Lib_FloatMul Lib_Num Sampler_Model Sampler_Spec.
Import ListNotations.
Open Scope nat_scope.

(** ** counts *)
Section Counts.
  Context {N : Type} {A : Num N} {D Draw : Type}.
  Variable step : bool -> bool -> D -> Draw -> option N * bool * D.
  Notation cnt := (count_occ bool_dec).

  Lemma run_counts : forall ds b d t b' d', run_loop step ds b d = (t, b', d') ->
    let outs := outcomes step ds (b_force b) (b_last b) d in
    b_iter b' = b_iter b + length outs /\ b_total b' = b_total b + cnt outs true /\ b_run b' = b_run b + cnt outs true /\
    b_alpha b' = b_alpha b /\ (if t then length outs < length ds else length outs = length ds).
  Proof.
    induction ds as [|x ds IH]; intros b d t b' d' H; cbn [run_loop] in H.
    - injection H as <- <- <-. cbn. repeat split; lia.
    - cbn [outcomes]. destruct (step (b_force b) (b_last b) d x) as [[[p|] last] d1].
      + apply IH in H. cbn [b_force b_last b_iter b_total b_run b_alpha] in H. destruct H as (H1 & H2 & H3 & H4 & H5). cbv zeta.
        cbn [length]. destruct last; cbn [count_occ bool_dec bool_rec bool_rect];
          rewrite ?H1, ?H2, ?H3; destruct t; repeat split; auto; cbn; try lia;
          try (match goal with |- context [bool_dec ?a ?b] => destruct (bool_dec a b); try congruence; lia end).
      + injection H as <- <- <-. cbn. repeat split; lia.
  Qed.

  Lemma run_counts_user : forall ds b d t b' d', sampler_run step ds b d = (t, b', d') ->
    let outs := outcomes step ds (b_force b) (b_last b) d in
    b_iter b' = b_iter b + length outs /\ b_total b' = b_total b + cnt outs true /\ b_run b' = cnt outs true /\
    (if t then length outs < length ds else length outs = length ds).
  Proof.
    intros ds b d t b' d' H. unfold sampler_run in H. apply run_counts in H. cbn [b_force b_last b_iter b_total b_run] in H. cbv zeta in *.
    destruct H as (H1 & H2 & H3 & _ & H5). auto.
  Qed.
  Lemma cnt_le : forall l, cnt l true <= length l.
  Proof. intros. apply count_occ_bound. Qed.

  Variable derived_reset : D -> D.
  Lemma calls_le : forall cs t b d t' b' d', b_total b <= b_iter b -> do_calls step derived_reset cs (t, b, d) = (t', b', d') -> b_total b' <= b_iter b'.
  Proof.
    induction cs as [|c cs IH]; intros t b d t' b' d' L H; cbn [do_calls fold_left] in H; [injection H as <- <- <-; auto|].
    fold (do_calls step derived_reset cs) in H. cbn [do_call] in H. destruct c as [| |ds].
    - eapply IH; [|exact H]. cbn. lia.
    - eapply IH; [|exact H]. exact L.
    - unfold sampler_run in H. destruct (run_loop _ _ _ _) as [[t1 b1] d1] eqn:R. eapply IH; [|exact H].
      apply run_counts in R. cbn [b_force b_last b_iter b_total b_run] in R. destruct R as (R1 & R2 & _).
      rewrite R1, R2. pose proof (cnt_le (outcomes step ds (b_force b) (b_last b) d)). lia.
  Qed.
End Counts.

(** ** the acceptance rate in double precision *)
Section Rate.
  Open Scope R_scope.
  Lemma fz_val : forall z, (0 <= z < 2 ^ 64)%Z -> is_finite (fz z) = true /\ val (fz z) = rnd (IZR z) /\ 0 <= rnd (IZR z) <= bpow radix2 64.
  Proof.
    intros z Hz. unfold fz, fl, val.
    pose proof (binary_normalize_correct 53 1024 prec53 emax1024 mode_NE z 0 false) as C.
    assert (E : F2R (Float radix2 z 0) = IZR z) by (unfold F2R; cbn; ring). cbv zeta in C. rewrite E in C.
    assert (B : 0 <= rnd (IZR z) <= bpow radix2 64).
    { split.
      - rewrite <- rnd_0. apply rnd_le. apply IZR_le. lia.
      - replace (bpow radix2 64) with (rnd (bpow radix2 64)).
        + apply rnd_le. change (bpow radix2 64) with (IZR (2 ^ 64)). apply IZR_le. lia.
        + apply round_generic; [apply valid_rnd_N|]. apply generic_format_bpow. unfold SpecFloat.fexp, SpecFloat.emin. lia. }
    rewrite Rlt_bool_true in C.
    - destruct C as (V & F & _). auto.
    - rewrite Rabs_right by lra. apply Rle_lt_trans with (1 := proj2 B). apply bpow_lt. lia.
  Qed.

  Lemma rnd_1 : rnd 1 = 1.
  Proof. rewrite <- val_1. apply rnd_val. Qed.

  Lemma rate_bounds : forall b : base b64, (b_total b <= b_iter b)%nat -> (Z.of_nat (b_iter b) < 2 ^ 64)%Z ->
    fle f0 (acceptanceRate b) = true /\ fle (acceptanceRate b) (fz 1) = true.
  Proof.
    intros b L U. unfold acceptanceRate. destruct (0 <? b_iter b)%nat eqn:P.
    2: { split; vm_compute; reflexivity. }
    apply Nat.ltb_lt in P. cbn [nlit b64_num ndiv]. change (1 =? 1)%Z with true. cbn iota.
    destruct (fz_val (Z.of_nat (b_total b))) as (Fa & Va & Ba); [lia|].
    destruct (fz_val (Z.of_nat (b_iter b))) as (Fn & Vn & Bn); [lia|].
    set (a := Z.of_nat (b_total b)) in *. set (m := Z.of_nat (b_iter b)) in *.
    assert (M1 : 1 <= rnd (IZR m)). { rewrite <- rnd_1 at 1. apply rnd_le. apply IZR_le. lia. }
    assert (AM : rnd (IZR a) <= rnd (IZR m)) by (apply rnd_le; apply IZR_le; lia).
    pose proof (Bdiv_correct 53 1024 prec53 emax1024 mode_NE (fz a) (fz m)) as C. fold (fdiv (fz a) (fz m)) in C.
    change (B2R (fz a)) with (val (fz a)) in C. change (B2R (fz m)) with (val (fz m)) in C. rewrite Va, Vn in C.
    assert (NZ : rnd (IZR m) <> 0) by lra. specialize (C NZ).
    assert (Q : 0 <= rnd (IZR a) / rnd (IZR m) <= 1).
    { split; [apply Rmult_le_pos; [lra|apply Rlt_le, Rinv_0_lt_compat; lra]|].
      apply Rmult_le_reg_r with (rnd (IZR m)); [lra|]. unfold Rdiv. rewrite Rmult_assoc, Rinv_l by lra. lra. }
    assert (Q' : 0 <= rnd (rnd (IZR a) / rnd (IZR m)) <= 1).
    { split; [rewrite <- rnd_0|rewrite <- rnd_1]; apply rnd_le; lra. }
    rewrite Rlt_bool_true in C by (rewrite Rabs_right by lra; apply Rle_lt_trans with (1 := proj2 Q'); apply (bpow_lt radix2 0 1024); lia).
    destruct C as (V & F & _). rewrite Fa in F.
    assert (V' : val (fdiv (fz a) (fz m)) = rnd (rnd (IZR a) / rnd (IZR m))) by exact V.
    split; apply fle_finite; auto; rewrite V', ?val_1; [change (val f0) with 0|]; lra.
  Qed.

  (* the moving average stays a probability, exact arithmetic *)
  Lemma mean_bounds : forall it al m p, 0 < al <= 1 -> 0 <= m <= 1 -> 0 <= p <= 1 -> 0 <= new_mean it al m p <= 1.
  Proof. intros it al m p Ha Hm Hp. unfold new_mean. destruct (it <? 2)%nat; auto. cbn. nra. Qed.

  Lemma run_mean : forall D Draw (step : bool -> bool -> D -> Draw -> option R * bool * D),
    (forall f l d x p a d1, step f l d x = (Some p, a, d1) -> 0 <= p <= 1) ->
    forall ds b d t b' d', 0 < b_alpha b <= 1 -> 0 <= b_mean b <= 1 -> run_loop step ds b d = (t, b', d') -> 0 <= b_mean b' <= 1.
  Proof.
    intros D Draw step P. induction ds as [|x ds IH]; intros b d t b' d' Ha Hm H; cbn [run_loop] in H; [injection H as <- <- <-; auto|].
    destruct (step _ _ _ _) as [[[p|] last] d1] eqn:S; [|injection H as <- <- <-; auto].
    eapply IH; [| |exact H]; cbn [b_alpha b_mean]; auto. apply mean_bounds; eauto.
  Qed.
  Lemma run_mean_user : forall D Draw (step : bool -> bool -> D -> Draw -> option R * bool * D),
    (forall f l d x p a d1, step f l d x = (Some p, a, d1) -> 0 <= p <= 1) ->
    forall ds b d t b' d', 0 < b_alpha b <= 1 -> 0 <= b_mean b <= 1 -> sampler_run step ds b d = (t, b', d') -> 0 <= b_mean b' <= 1.
  Proof. intros D Draw step H ds b d t b' d' Ha Hm Hr. unfold sampler_run in Hr. eapply run_mean; [exact H| | |exact Hr]; auto. Qed.
End Rate.

(** ** Metropolis-Hastings *)
Section MHP.
  Context {N : Type} {A : Num N} {W V : Type}.
  Variables (density : W -> option N) (upd : W -> V -> W) (expo : N -> N).

  Notation mstep := (mh_step density upd expo).
  Notation valid := (mh_valid density).

  Lemma mh_spec : forall f l d dx u p a d', valid f l d -> mstep f l d (dx, u) = (Some p, a, d') ->
    exists old new, density (m_world d) = Some old /\ density (upd (m_world d) dx) = Some new /\
      p = expo (min0 (nadd (nopp new) old)) /\ a = nlt u p /\
      d' = (if nlt u p then mkMh (upd (m_world d) dx) (m_world d) new else mkMh (m_world d) (m_world d) old).
  Proof.
    intros f l d dx u p a d' Va H. unfold mh_step in H. cbn [fst snd mh_apply mh_revert m_world m_saved m_cached] in H.
    assert (Q : (if f || negb l then density (m_world d) else Some (m_cached d)) = density (m_world d)).
    { destruct (f || negb l) eqn:E; auto. symmetry. apply Va. auto. }
    rewrite Q in H. destruct (density (m_world d)) as [old|] eqn:E1; [|discriminate].
    destruct (density (upd (m_world d) dx)) as [new|] eqn:E2; [|discriminate].
    exists old, new.
    destruct (nlt u (expo (min0 (nadd (nopp new) old)))) eqn:L; injection H as <- <- <-; rewrite L; auto.
  Qed.

  Lemma mh_one : forall f l d dx u p a d', valid f l d -> mstep f l d (dx, u) = (Some p, a, d') ->
    (a = true -> m_world d' = upd (m_world d) dx) /\ (a = false -> m_world d' = m_world d) /\ density (m_world d') = Some (m_cached d') /\
    exists old new, density (m_world d) = Some old /\ density (upd (m_world d) dx) = Some new /\ p = expo (min0 (nadd (nopp new) old)) /\ a = nlt u p.
  Proof.
    intros f l d dx u p a d' Va H. destruct (mh_spec _ _ _ _ _ _ _ _ Va H) as (old & new & A1 & A2 & A3 & A4 & A5). subst d'. rewrite <- A4.
    split; [intros ->; reflexivity|]. split; [intros ->; reflexivity|]. split; [destruct a; auto|]. exists old, new. auto.
  Qed.
  Lemma mh_keeps : forall f l d x p a d', valid f l d -> mstep f l d x = (Some p, a, d') -> valid false a d'.
  Proof.
    intros f l d (dx & u) p a d' Va H. destruct (mh_spec _ _ _ _ _ _ _ _ Va H) as (old & new & E1 & E2 & _ & -> & ->).
    intros Nc. destruct (nlt u p); cbn in *; auto; discriminate.
  Qed.

  Lemma mh_run_valid : forall ds b d b' d', valid (b_force b) (b_last b) d -> run_loop mstep ds b d = (false, b', d') ->
    valid (b_force b') (b_last b') d'.
  Proof.
    induction ds as [|x ds IH]; intros b d b' d' Va H; cbn [run_loop] in H; [injection H as <- <-; auto|].
    destruct (mstep _ _ _ _) as [[[p|] last] d1] eqn:S; [|discriminate].
    eapply IH; [|exact H]. cbn [b_force b_last]. eapply mh_keeps; eauto.
  Qed.

  Variable nan : N.
  Lemma mh_calls_valid : forall cs b d b' d', valid (b_force b) (b_last b) d ->
    do_calls mstep (mh_reset nan) cs (false, b, d) = (false, b', d') -> valid (b_force b') (b_last b') d'.
  Proof.
    assert (Thr : forall cs b d, fst (fst (do_calls mstep (mh_reset nan) cs (true, b, d))) = true).
    { induction cs as [|c cs IH]; intros b d; cbn [do_calls fold_left]; auto. cbn [do_call]. destruct c; cbn [do_call].
      - apply IH. - apply IH. - destruct (sampler_run _ _ _ _) as [[t b1] d1]. apply IH. }
    induction cs as [|c cs IH]; intros b d b' d' Va H; cbn [do_calls fold_left] in H; [injection H as <- <-; auto|].
    fold (do_calls mstep (mh_reset nan) cs) in H. cbn [do_call] in H. destruct c as [| |ds].
    - eapply IH; [|exact H]. intros X; discriminate.
    - eapply IH; [|exact H]. intros X; discriminate.
    - destruct (sampler_run mstep ds b d) as [[t b1] d1] eqn:R. cbn [orb] in H. destruct t.
      + specialize (Thr cs b1 d1). unfold do_calls in Thr, H. rewrite H in Thr. discriminate.
      + eapply IH; [|exact H]. unfold sampler_run in R. eapply mh_run_valid; [|exact R]. exact Va.
  Qed.
  Lemma mh_new_valid : forall d, valid (b_force (base_new (N:=N))) (b_last base_new) d.
  Proof. intros d X. discriminate. Qed.
End MHP.

Section Balance.
  Open Scope R_scope.
  Lemma min0_R : forall x, min0 x = Rmin x 0.
  Proof.
    intros x. unfold min0. cbn. unfold Rmin, Rltb. replace (0 / 1) with 0 by field.
    destruct (Rlt_dec x 0); destruct (Rle_dec x 0); try lra; auto.
  Qed.
  Lemma balance_R : forall u v, exp (- u) * exp (min0 (- v + u)) = exp (- v) * exp (min0 (- u + v)).
  Proof.
    intros u v. rewrite !min0_R, <- !exp_plus. f_equal. unfold Rmin. destruct (Rle_dec (- v + u) 0); destruct (Rle_dec (- u + v) 0); lra.
  Qed.
  Lemma exp_min0 : forall x, 0 < exp (min0 x) <= 1.
  Proof.
    intros x. split; [apply exp_pos|]. rewrite <- exp_0. rewrite min0_R. destruct (Rle_lt_or_eq_dec _ _ (Rmin_r x 0)) as [L|E].
    - apply Rlt_le, exp_increasing; auto.
    - rewrite E. lra.
  Qed.

  Context {W V : Type}.
  Variables (density : W -> option R) (upd : W -> V -> W) (opp : V -> V).
  Hypothesis back : forall w v, upd (upd w v) (opp v) = w.
  Variable q : V -> R.
  Hypothesis qs : forall v, q (opp v) = q v.
  Notation mstep := (mh_step density upd exp).

  Lemma mh_moves : forall f l d dx u p a d1 y, mh_valid density f l d -> y = upd (m_world d) dx -> mstep f l d (dx, u) = (Some p, a, d1) ->
    (a = true <-> u < p) /\ m_world d1 = (if a then y else m_world d).
  Proof.
    intros f l d dx u p a d1 y Va Ey H. destruct (mh_one _ _ _ _ _ _ _ _ _ _ _ Va H) as (A1 & A2 & _ & o & n & _ & _ & _ & A4). split.
    - rewrite A4. exact (Rltb_true u p).
    - rewrite Ey. destruct a; auto.
  Qed.
  Lemma mh_balance : forall f l d dx u p a d1 f' l' e u' p' a' e1 ux uy,
    mh_valid density f l d -> mh_valid density f' l' e -> m_world e = upd (m_world d) dx ->
    mstep f l d (dx, u) = (Some p, a, d1) -> mstep f' l' e (opp dx, u') = (Some p', a', e1) ->
    density (m_world d) = Some ux -> density (m_world e) = Some uy ->
    upd (m_world e) (opp dx) = m_world d /\ target ux * q dx * p = target uy * q (opp dx) * p' /\ 0 < p <= 1.
  Proof.
    intros f l d dx u p a d1 f' l' e u' p' a' e1 ux uy Va Ve We H1 H2 Dx Dy.
    destruct (mh_spec _ _ _ _ _ _ _ _ _ _ _ Va H1) as (o1 & n1 & A1 & A2 & A3 & _).
    destruct (mh_spec _ _ _ _ _ _ _ _ _ _ _ Ve H2) as (o2 & n2 & B1 & B2 & B3 & _).
    rewrite We, back in B2. rewrite We in *. assert (o1 = ux) by congruence. assert (n1 = uy) by congruence.
    assert (o2 = uy) by congruence. assert (n2 = ux) by congruence. subst. split; [apply back|]. split; [|apply exp_min0].
    unfold target. rewrite qs. pose proof (balance_R ux uy) as Bq.
    change (nadd (nopp uy) ux) with (- uy + ux). change (nadd (nopp ux) uy) with (- ux + uy).
    transitivity (q dx * (exp (- ux) * exp (min0 (- uy + ux)))); [ring|]. rewrite Bq. ring.
  Qed.
End Balance.

(** ** Hybrid Monte Carlo *)
Section HMCP.
  Open Scope R_scope.
  Context {W : Type}.
  Variable n : nat.
  Variables (density : W -> option R) (gradient : W -> option (vec R)) (upd : W -> vec R -> W).
  Notation allfin := (fun _ : vec R => true).
  Definition vopp (p : vec R) : vec R := fun i => - p i.
  Hypothesis back : forall w v, upd (upd w v) (vopp v) = w.

  Inductive op := Kick (c : R) | Drift (c : R).
  Definition act (a : op) (z : option (W * vec R)) : option (W * vec R) :=
    match z with
    | None => None
    | Some (w, p) => match a with
                     | Kick c => match gradient w with Some g => Some (w, vsub p (vscale c g)) | None => None end
                     | Drift c => Some (upd w (vscale c p), p)
                     end
    end.
  Definition acts (l : list op) (z : option (W * vec R)) : option (W * vec R) := fold_left (fun z a => act a z) l z.
  Definition flip (z : W * vec R) : W * vec R := (fst z, vopp (snd z)).

  Lemma act_flip : forall a z z', act a (Some z) = Some z' -> act a (Some (flip z')) = Some (flip z).
  Proof.
    intros [c|c] (w & p) z' H; cbn [act] in H.
    - destruct (gradient w) as [g|] eqn:G; [|discriminate]. injection H as <-. unfold flip. cbn [fst snd act]. rewrite G. do 2 f_equal.
      apply functional_extensionality. intros i. unfold vsub, vopp, vscale. cbn. ring.
    - injection H as <-. unfold flip. cbn [fst snd act]. do 2 f_equal.
      assert (vscale c (vopp p) = vopp (vscale c p)) as -> by (apply functional_extensionality; intros i; unfold vscale, vopp; cbn; ring). apply back.
  Qed.
  Lemma acts_none : forall l, acts l None = None.
  Proof. induction l as [|a l IH]; auto. Qed.
  Lemma acts_app : forall l1 l2 z, acts (l1 ++ l2) z = acts l2 (acts l1 z).
  Proof. intros. unfold acts. apply fold_left_app. Qed.
  Lemma acts_flip : forall l z z', acts l (Some z) = Some z' -> acts (rev l) (Some (flip z')) = Some (flip z).
  Proof.
    induction l as [|a l IH]; intros z z' H.
    - injection H as <-. reflexivity.
    - cbn [acts fold_left] in H. change (fold_left (fun z a => act a z) l (act a (Some z))) with (acts l (act a (Some z))) in H.
      destruct (act a (Some z)) as [z1|] eqn:E; [|rewrite acts_none in H; discriminate].
      cbn [rev]. rewrite acts_app, (IH _ _ H). cbn [acts fold_left]. apply act_flip. auto.
  Qed.

  Fixpoint mids (eps : R) (m : nat) : list op := match m with O => [] | S m' => Kick eps :: Drift eps :: mids eps m' end.
  Lemma mids_snoc : forall eps m, mids eps (S m) = mids eps m ++ [Kick eps; Drift eps].
  Proof. intros eps. induction m as [|m IH]; auto. change (mids eps (S (S m))) with (Kick eps :: Drift eps :: mids eps (S m)). rewrite IH at 1. reflexivity. Qed.
  Lemma mids_rev : forall eps m, Drift eps :: mids eps m = rev (mids eps m) ++ [Drift eps].
  Proof.
    intros eps. induction m as [|m IH]; auto. rewrite mids_snoc at 1. rewrite app_comm_cons, IH. cbn [mids rev]. rewrite <- !app_assoc. reflexivity.
  Qed.
  Definition whole (half eps : R) (m : nat) : list op := [Kick half; Drift eps] ++ mids eps m ++ [Kick half].
  Lemma whole_rev : forall half eps m, rev (whole half eps m) = whole half eps m.
  Proof.
    intros. unfold whole. rewrite !rev_app_distr. cbn [rev app]. f_equal.
    change (Drift eps :: mids eps m ++ [Kick half]) with ((Drift eps :: mids eps m) ++ [Kick half]). rewrite mids_rev, <- app_assoc. reflexivity.
  Qed.

  Lemma full_acts : forall eps m w p, full_steps gradient upd allfin eps m w p = acts (mids eps m) (Some (w, p)).
  Proof.
    intros eps. induction m as [|m IH]; intros w p; auto. cbn [full_steps mids acts fold_left act].
    destruct (gradient w) as [g|].
    - rewrite IH. reflexivity.
    - cbn [act]. change (None = acts (mids eps m) None). rewrite acts_none. auto.
  Qed.
  Lemma trajectory_acts : forall half eps steps w g p, gradient w = Some g ->
    match trajectory gradient upd allfin half eps steps w g p with Some (w2, p2, _) => Some (w2, p2) | None => None end =
    acts (whole half eps (middle steps)) (Some (w, p)).
  Proof.
    intros half eps steps w g p G. unfold trajectory, whole. rewrite full_acts, !acts_app. cbn [acts fold_left act]. rewrite G.
    set (z := acts (mids eps (middle steps)) _).
    change (fold_left (fun z a => act a z) (mids eps (middle steps)) (Some (upd w (vscale eps (vsub p (vscale half g))), vsub p (vscale half g)))) with z.
    destruct z as [(w2 & p2)|]; auto. cbn [act]. destruct (gradient w2); auto.
  Qed.

  Lemma trajectory_grad : forall fin half eps steps w g p w2 p2 g2, trajectory gradient upd fin half eps steps w g p = Some (w2, p2, g2) -> gradient w2 = Some g2.
  Proof.
    intros fin half eps steps w g p w2 p2 g2 H. unfold trajectory in H. destruct (full_steps _ _ _ _ _ _ _) as [(w3 & p3)|]; [|discriminate].
    destruct (gradient w3) eqn:G; [|discriminate]. injection H as <- <- <-. auto.
  Qed.

  Lemma reversible : forall half eps steps w g p w2 p2 g2, gradient w = Some g ->
    trajectory gradient upd allfin half eps steps w g p = Some (w2, p2, g2) ->
    trajectory gradient upd allfin half eps steps w2 g2 (vopp p2) = Some (w, vopp p, g).
  Proof.
    intros half eps steps w g p w2 p2 g2 G H. pose proof (trajectory_grad _ _ _ _ _ _ _ _ _ _ H) as G2.
    pose proof (trajectory_acts half eps steps w g p G) as T. rewrite H in T. symmetry in T.
    apply acts_flip in T. rewrite whole_rev in T. unfold flip in T. cbn [fst snd] in T.
    pose proof (trajectory_acts half eps steps w2 g2 (vopp p2) G2) as T2. rewrite T in T2.
    destruct (trajectory _ _ _ _ _ _ w2 g2 (vopp p2)) as [[[w3 p3] g3]|] eqn:E; [|discriminate].
    injection T2 as -> ->. apply trajectory_grad in E. congruence.
  Qed.

  Lemma kinetic_opp : forall p, kinetic n (vopp p) = kinetic n p.
  Proof. intros p. unfold kinetic, vdot. f_equal. apply ksum_ext. intros i _. unfold vopp. cbn. ring. Qed.

  (** rejection and caching, for arbitrary notions of finiteness *)
  Variables (finite : vec R -> bool) (finiteE : R -> bool).
  Notation att := (attempts n density gradient upd finite finiteE).
  Notation valid := (hmc_valid density gradient).

  Lemma simulate_ends : forall half eps steps w g p w2 g2 u2 e2,
    simulate n density gradient upd finite finiteE half eps steps w g p = Some (w2, g2, u2, e2) ->
    density w2 = Some u2 /\ gradient w2 = Some g2.
  Proof.
    intros half eps steps w g p w2 g2 u2 e2 H. unfold simulate in H. destruct (trajectory _ _ _ _ _ _ _ _ _) as [[[w3 p3] g3]|] eqn:T; [|discriminate].
    destruct (density w3) eqn:D; [|discriminate]. destruct (finiteE _); [|discriminate]. injection H as <- <- <- <-. split; auto. eapply trajectory_grad; eauto.
  Qed.

  Lemma attempts_spec : forall o half f draws l d r a d', valid f l d -> att o half f l d draws = (r, a, d') ->
    (a = false -> h_world d' = h_world d) /\
    (r <> None -> density (h_world d') = Some (h_u d') /\ gradient (h_world d') = Some (h_grad d')) /\
    (r = None -> valid f a d') /\
    (r = None -> h_world d' = h_world d) /\
    (forall p, r = Some p -> 0 <= p <= 1).
  Proof.
    intros o half f. induction draws as [|(p & uu) rest IH]; intros l d r a d' Va H; cbn [attempts] in H.
    { injection H as <- <- <-. split; [auto|split; [congruence|split; [intros _; exact Va|split; [auto|discriminate]]]]. }
    assert (Q1 : (if f || negb l then density (h_world d) else Some (h_u d)) = density (h_world d)).
    { destruct (f || negb l) eqn:E; auto. symmetry. apply Va. auto. }
    assert (Q2 : (if f || negb l then gradient (h_world d) else Some (h_grad d)) = gradient (h_world d)).
    { destruct (f || negb l) eqn:E; auto. symmetry. apply Va. auto. }
    cbv zeta in H. rewrite Q1, Q2 in H.
    destruct (density (h_world d)) as [u0|] eqn:D0; [|injection H as <- <- <-; split; [auto|split; [congruence|split; [intros _; exact Va|split; [auto|discriminate]]]]].
    destruct (gradient (h_world d)) as [g0|] eqn:G0; [|injection H as <- <- <-; split; [auto|split; [congruence|split; [intros _; exact Va|split; [auto|discriminate]]]]].
    destruct (simulate _ _ _ _ _ _ _ _ _ _ _ _) as [[[[w2 g2] u2] e2]|] eqn:S.
    - destruct (simulate_ends _ _ _ _ _ _ _ _ _ _ S) as (E1 & E2).
      assert (Pr : 0 <= Rmin 1 (exp (u0 + kinetic n p - e2)) <= 1).
      { split; [|apply Rmin_l]. apply Rmin_glb; [lra|]. apply Rlt_le, exp_pos. }
      destruct (Rltb _ _) in H; injection H as <- <- <-; cbn [h_world h_u h_grad]; repeat split; auto; try discriminate; try (match goal with X : Some _ = Some _ |- _ => injection X as <-; lra end).
    - destruct (Rltb _ _) in H.
      + injection H as <- <- <-. cbn [h_world h_u h_grad]. repeat split; auto; try discriminate; try (match goal with X : Some _ = Some _ |- _ => injection X as <-; lra end).
      + apply IH in H; [exact H|]. intros X. rewrite orb_true_r in X. discriminate.
  Qed.
End HMCP.

Section HMCH.
  Open Scope R_scope.
  Context {W : Type}.
  Variable n : nat.
  Variables (density : W -> option R) (gradient : W -> option (vec R)) (upd : W -> vec R -> W).
  Variables (finite : vec R -> bool) (finiteE : R -> bool).
  Variable o : hopts.
  Notation hstep := (hmc_step n density gradient upd finite finiteE o).
  Notation valid := (hmc_valid density gradient).

  Lemma hmc_run_valid : forall ds b d t b' d', valid (b_force b) (b_last b) d -> run_loop hstep ds b d = (t, b', d') ->
    valid (b_force b') (b_last b') d'.
  Proof.
    induction ds as [|x ds IH]; intros b d t b' d' Va H; cbn [run_loop] in H; [injection H as <- <- <-; auto|].
    destruct (hstep _ _ _ _) as [[r last] d1] eqn:S. pose proof (attempts_spec n density gradient upd finite finiteE o _ _ _ _ _ _ _ _ Va S) as (_ & E1 & E2 & _).
    destruct r as [p|].
    - eapply IH; [|exact H]. cbn [b_force b_last]. intros _. apply E1. discriminate.
    - injection H as <- <- <-. cbn [b_force b_last]. auto.
  Qed.
  Lemma hmc_calls_valid : forall cs t b d t' b' d', valid (b_force b) (b_last b) d ->
    do_calls hstep (fun d => d) cs (t, b, d) = (t', b', d') -> valid (b_force b') (b_last b') d'.
  Proof.
    induction cs as [|c cs IH]; intros t b d t' b' d' Va H; cbn [do_calls fold_left] in H; [injection H as <- <- <-; auto|].
    fold (do_calls hstep (fun d => d) cs) in H. cbn [do_call] in H. destruct c as [| |ds].
    - eapply IH; [|exact H]. intros X; discriminate.
    - eapply IH; [|exact H]. intros X; discriminate.
    - destruct (sampler_run hstep ds b d) as [[t1 b1] d1] eqn:R. eapply IH; [|exact H]. unfold sampler_run in R. eapply hmc_run_valid; [|exact R]. exact Va.
  Qed.
  Lemma hmc_new_valid : forall d, valid (b_force (base_new (N:=R))) (b_last base_new) d.
  Proof. intros d X. discriminate. Qed.
End HMCH.

Section HMCB.
  Open Scope R_scope.
  Context {W : Type}.
  Variable n : nat.
  Variables (density : W -> option R) (gradient : W -> option (vec R)) (upd : W -> vec R -> W).
  Hypothesis back : forall w v, upd (upd w v) (vopp v) = w.
  Notation fin := (fun _ : vec R => true).
  Notation finE := (fun _ : R => true).
  Variable o : hopts.
  Notation hstep := (hmc_step n density gradient upd fin finE o).

  Lemma hstep_prob : forall f l d p uu rest g w2 p2 g2 u u2 r a d', hmc_valid density gradient f l d ->
    gradient (h_world d) = Some g -> density (h_world d) = Some u -> density w2 = Some u2 ->
    trajectory gradient upd fin (h_eps d / 2) (h_eps d) (h_steps o) (h_world d) g p = Some (w2, p2, g2) ->
    hstep f l d ((p, uu) :: rest) = (r, a, d') -> r = Some (Rmin 1 (exp (u + kinetic n p - (u2 + kinetic n p2)))) /\
    (a = true <-> uu < Rmin 1 (exp (u + kinetic n p - (u2 + kinetic n p2)))) /\ h_world d' = (if a then w2 else h_world d).
  Proof.
    intros f l d p uu rest g w2 p2 g2 u u2 r a d' Va G D D2 T H. unfold hmc_step in H. cbn [attempts] in H.
    assert (Q1 : (if f || negb l then density (h_world d) else Some (h_u d)) = density (h_world d)).
    { destruct (f || negb l) eqn:E; auto. symmetry. apply Va. auto. }
    assert (Q2 : (if f || negb l then gradient (h_world d) else Some (h_grad d)) = gradient (h_world d)).
    { destruct (f || negb l) eqn:E; auto. symmetry. apply Va. auto. }
    cbv zeta in H. rewrite Q1, Q2, G, D in H. unfold simulate in H. rewrite T, D2 in H.
    destruct (Rltb uu _) eqn:L in H; injection H as <- <- <-; split; auto; split; auto.
    - apply Rltb_true in L. tauto.
    - apply Rltb_false in L. split; [discriminate|]. intros X. exfalso. lra.
  Qed.

  Lemma balance_H : forall e e2, exp (- e) * Rmin 1 (exp (e - e2)) = exp (- e2) * Rmin 1 (exp (e2 - e)).
  Proof.
    intros e e2. destruct (Rle_or_lt e e2) as [L|L].
    - rewrite (Rmin_right 1 (exp (e - e2))); [rewrite (Rmin_left 1 (exp (e2 - e)))|].
      + rewrite <- exp_plus, Rmult_1_r. f_equal. lra.
      + rewrite <- exp_0. destruct (Req_dec e e2) as [->|]; [rewrite Rminus_diag_eq by auto; lra|]. apply Rlt_le, exp_increasing. lra.
      + rewrite <- exp_0. destruct (Req_dec e e2) as [->|]; [rewrite Rminus_diag_eq by auto; lra|]. apply Rlt_le, exp_increasing. lra.
    - rewrite (Rmin_left 1 (exp (e - e2))); [rewrite (Rmin_right 1 (exp (e2 - e)))|].
      + rewrite <- exp_plus, Rmult_1_r. f_equal. lra.
      + rewrite <- exp_0. apply Rlt_le, exp_increasing. lra.
      + rewrite <- exp_0. apply Rlt_le, exp_increasing. lra.
  Qed.

  Lemma hmc_balance : forall f l d p uu rest a b d1 f' l' e uu' rest' a' b' e1 g g2 w2 p2 u u2,
    hmc_valid density gradient f l d -> hmc_valid density gradient f' l' e -> h_eps e = h_eps d ->
    gradient (h_world d) = Some g -> trajectory gradient upd fin (h_eps d / 2) (h_eps d) (h_steps o) (h_world d) g p = Some (w2, p2, g2) ->
    h_world e = w2 -> density (h_world d) = Some u -> density w2 = Some u2 ->
    hstep f l d ((p, uu) :: rest) = (Some a, b, d1) -> hstep f' l' e ((vopp p2, uu') :: rest') = (Some a', b', e1) ->
    joint n u p * a = joint n u2 (vopp p2) * a' /\ (b = true <-> uu < a) /\ (b' = true -> h_world e1 = h_world d).
  Proof.
    intros f l d p uu rest a b d1 f' l' e uu' rest' a' b' e1 g g2 w2 p2 u u2 Va Ve Ee G T We Du Du2 H1 H2.
    pose proof (reversible gradient upd back _ _ _ _ _ _ _ _ _ G T) as T2. pose proof (trajectory_grad _ _ _ _ _ _ _ _ _ _ _ _ T) as G2.
    destruct (hstep_prob _ _ _ _ _ _ _ _ _ _ _ _ _ _ _ Va G Du Du2 T H1) as (A1 & A2 & _). injection A1 as A1.
    rewrite <- We in G2, Du2. rewrite <- We, <- Ee in T2.
    destruct (hstep_prob _ _ _ _ _ _ _ _ _ _ _ _ _ _ _ Ve G2 Du2 Du T2 H2) as (B1 & B2 & B3). injection B1 as B1.
    rewrite !kinetic_opp in B1. split; [|split].
    - rewrite A1, B1. unfold joint. change (/ 2 * vdot n p p) with (kinetic n p). change (/ 2 * vdot n (vopp p2) (vopp p2)) with (kinetic n (vopp p2)).
      rewrite kinetic_opp. apply balance_H.
    - rewrite A1. exact A2.
    - intros X. rewrite X in B3. exact B3.
  Qed.
End HMCB.
