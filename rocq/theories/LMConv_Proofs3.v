(** * Levenberg-Marquardt on nonlinear problems: the run meets nearly stationary states *)
From Coq Require Import Reals Lra Lia Arith List Bool ZArith Psatz.
From Verif Require Import Lib_Ring Lib_Real Optimizer2_Model Policy_Model Policy_Spec Lin_Model Lin_Spec Lin_Proofs Lin_Proofs2 Nlin_Model Nlin_Spec Nlin_Proofs LMConv_Spec LMConv_Proofs LMConv_Proofs2.
Open Scope R_scope.

Lemma numbers : forall P, steady P -> exists kap mum, (1 < kap <= 2 /\ gamma P * kap * kap <= 2 * mum /\ kap <= 1 + (beta P - 1) * (1 / 2) ^ p P) /\ (1 <= mum /\ mum <= muInit P /\ mum <= beta P).
Proof.
  intros P ((A & G & B & O & D) & _ & S1 & S2). set (mum := Rmin (muInit P) (beta P)). pose proof (Rmin_l (muInit P) (beta P)) as M1. pose proof (Rmin_r (muInit P) (beta P)) as M2. fold mum in M1, M2.
  assert (1 <= mum) as M3 by (unfold mum; apply Rmin_glb; lra). assert (gamma P < 2 * mum) as M4 by (unfold mum; apply Rmin_case; lra).
  set (q := 2 * mum / gamma P). assert (1 < q) as Q. { unfold q. apply Rmult_lt_reg_r with (gamma P); [lra|]. unfold Rdiv. rewrite Rmult_assoc, Rinv_l by lra. lra. }
  assert (q * gamma P = 2 * mum) as Q2 by (unfold q; field; lra).
  pose proof (pow_lt (1 / 2) (p P) ltac:(lra)) as H. set (w := (beta P - 1) * (1 / 2) ^ p P). assert (0 < w) as W by (unfold w; nra).
  set (eta := Rmin (Rmin 1 ((q - 1) / 3)) w). assert (0 < eta) as E0 by (unfold eta; repeat apply Rmin_glb_lt; lra).
  assert (eta <= 1 /\ eta <= (q - 1) / 3 /\ eta <= w) as (E1 & E2 & E3).
  { unfold eta. pose proof (Rmin_l (Rmin 1 ((q - 1) / 3)) w). pose proof (Rmin_r (Rmin 1 ((q - 1) / 3)) w). pose proof (Rmin_l 1 ((q - 1) / 3)). pose proof (Rmin_r 1 ((q - 1) / 3)). lra. }
  exists (1 + eta), mum. split; [split; [lra|split; [|lra]]|auto]. assert ((1 + eta) * (1 + eta) <= q) by nra. rewrite Rmult_assoc, <- Q2. rewrite (Rmult_comm q). apply Rmult_le_compat_l; lra.
Qed.
Lemma all_below : forall k (f : nat -> R) eps, (forall p, (p < k)%nat -> f p <= eps) \/ ~ (forall p, (p < k)%nat -> f p <= eps).
Proof.
  induction k as [|k IH]; intros f eps; [left; intros; lia|]. destruct (IH f eps) as [H|H]; [|right; intros Q; apply H; intros; apply Q; lia].
  destruct (Rle_dec (f k) eps) as [H1|H1]; [left|right; intros Q; apply H1, Q; lia]. intros p Hp. destruct (Nat.eq_dec p k) as [->|]; auto. apply H. lia.
Qed.
Lemma cost_nonneg : forall X m e x, 0 <= n_cost X m e x.
Proof. intros. unfold n_cost. apply dot_sq. Qed.

Definition gain (n : nat) (P : lmparams) (L K c : R) : R := INR n * L + lmax P c K * lmax P c K.
Lemma gain_pos : forall n P L K c, steady P -> 0 <= L -> 0 <= K -> 0 <= c -> 1 <= gain n P L K c.
Proof.
  intros n P L K c S0 Hl Hk Hc. unfold gain. destruct (lmax_ge P c K Hk S0 Hc) as (_ & _ & _ & H). pose proof (pos_INR n). assert (0 <= INR n * L) by (apply Rmult_le_pos; auto). nra.
Qed.
Lemma gain_bound : forall X n m e Jac P L K c lam x d eps, steady P -> 0 <= L -> 0 <= K -> 0 <= c -> lmin P <= lam <= lmax P c K -> eqn X n m e Jac lam x d -> maxabs n d <= eps -> entries_below n m Jac x L ->
  forall p, (p < n)%nat -> Rabs (gradient m e Jac x p) <= gain n P L K c * eps.
Proof.
  intros X n m e Jac P L K c lam x d eps S0 Hl Hk Hc L1 E M B p Hp. eapply Rle_trans; [apply (grad_bound X n m e Jac lam x d eps L E M B p Hp)|].
  pose proof (lmin_pos P S0) as L0. assert (0 <= maxabs n d) as M0. { clear. induction n; cbn [maxabs]; [lra|]. eapply Rle_trans; [exact IHn|apply Rmax_l]. }
  apply Rmult_le_compat_r; [lra|]. unfold gain. apply Rplus_le_compat_l. apply Rmult_le_compat; lra.
Qed.


Definition psi_of (P : lmparams) (kap : R) : R := lmin P / (gamma P * kap).
Lemma psi_facts : forall P kap, steady P -> 1 < kap -> 0 < psi_of P kap <= lambdaInit P /\ psi_of P kap * (gamma P * kap) <= lmin P.
Proof.
  intros P kap S0 Hk. pose proof (lmin_pos P S0) as L0. pose proof (lmin_init P) as L1. pose proof S0 as ((A & G & _) & _). assert (1 <= gamma P * kap) as GK by nra. unfold psi_of.
  assert (lmin P / (gamma P * kap) * (gamma P * kap) = lmin P) as E by (field; nra). split; [split|lra].
  - apply Rdiv_lt_0_compat; lra.
  - assert (0 < lmin P / (gamma P * kap)) by (apply Rdiv_lt_0_compat; lra). nra.
Qed.

Section Visits.
  Variables (n : nat) (P : lmparams) (L K c : R).
  Hypothesis (S0 : steady P) (Hl : 0 <= L) (Hk : 0 <= K) (Hc : 0 <= c).
  (* every state of a run *)
  Lemma inv_all : forall kap mum, (1 < kap <= 2 /\ gamma P * kap * kap <= 2 * mum /\ kap <= 1 + (beta P - 1) * (1 / 2) ^ p P) -> (1 <= mum /\ mum <= muInit P /\ mum <= beta P) ->
    forall X move m (e : X -> vec R) Jac solver opt x, answers n m solver -> 0 <= o_dx opt /\ 0 <= o_dJ opt -> tame n m move e Jac c L K -> n_cost X m e x <= c ->
    let po := n_levenberg_marquardt X n m e Jac solver P in
    forall k, (forall j, (j < k)%nat -> n_continue X po opt (after move n m e po j (n_start X m e po opt x)) = true) ->
    inv X move n m e Jac solver opt P c K kap mum 0 (psi_of P kap) k (after move n m e po k (n_start X m e po opt x)) /\
    n_it X po (after move n m e po k (n_start X m e po opt x)) = Z.of_nat k /\ (n_fail X po (after move n m e po k (n_start X m e po opt x)) <= Z.of_nat k)%Z.
  Proof.
    intros kap mum Kp Mu X move m e Jac solver opt x So Oo Ta Cx po. destruct (psi_facts P kap S0 (proj1 (proj1 Kp))) as [Ps _]. pose proof (lmin_pos P S0) as L0.
    induction k as [|k IH]; intros H; [split; [apply inv_start; auto|split; [reflexivity|cbn; lia]]|].
    destruct (IH ltac:(intros; apply H; lia)) as (I1 & I2 & I3). specialize (H k ltac:(lia)). cbn [after]. set (l := after move n m e po k (n_start X m e po opt x)) in *.
    assert (n_it X po (n_iteration X move n m e po l) = (n_it X po l + 1)%Z /\ (n_fail X po (n_iteration X move n m e po l) <= n_fail X po l + 1)%Z) as [Q1 Q2].
    { eapply (count_step X move n m e Jac solver opt P c) with (k := k); eauto. }
    split; [|lia]. eapply inv_step; eauto; [lra|]. intros lam d Lm E. assert (0 < lam) as Lp by lra. pose proof (den_ge X n m e Jac lam _ d Lp E) as Q. pose proof (dot_sq n d). nra.
  Qed.

  Theorem visits : forall eps, 0 < eps ->
    exists N, forall X move m (e : X -> vec R) Jac solver opt x, answers n m solver -> 0 <= o_dx opt /\ 0 <= o_dJ opt -> tame n m move e Jac c L K -> n_cost X m e x <= c ->
      let po := n_levenberg_marquardt X n m e Jac solver P in let state k := after move n m e po k (n_start X m e po opt x) in
      forall k0, (forall j, (j < k0)%nat -> n_continue X po opt (state j) = true) ->
      exists k, (k0 <= k <= k0 + N)%nat /\ (forall j, (j < k)%nat -> n_continue X po opt (state j) = true) /\
        (nearly_stationary n m e Jac eps (n_x X po (state k)) \/ n_continue X po opt (state k) = false).
  Proof.
    intros eps He. destruct (numbers P S0) as (kap & mum & Kp & Mu). pose proof (gain_pos n P L K c S0 Hl Hk Hc) as Gp. set (W := gain n P L K c) in *. pose proof (lmin_pos P S0) as L0.
    destruct (psi_facts P kap S0 (proj1 (proj1 Kp))) as [Ps Ps2]. set (psi := psi_of P kap) in *.
    set (h := lmin P * (eps / W)). assert (0 < eps / W) as EW by (apply Rdiv_lt_0_compat; lra). assert (0 < h) as H0 by (unfold h; nra).
    set (delta := h * h / 4). assert (0 < delta) as D0 by (unfold delta; nra).
    assert (exists G : nat, c / delta < INR G) as [G HG].
    { exists (Z.to_nat (up (c / delta))). destruct (archimed (c / delta)) as [Q _]. assert (0 <= c / delta) by (apply Rmult_le_pos; [auto|apply Rlt_le, Rinv_0_lt_compat; auto]).
      rewrite INR_IZR_INZ, Z2Nat.id; [lra|]. apply le_IZR. lra. }
    pose proof S0 as ((A & Ga & B & _ & D) & _).
    set (Z := lmax P c K * gamma P ^ G / psi).
    destruct (Pow_x_infinity kap ltac:(rewrite Rabs_pos_eq; lra) (Z + 1)) as [Bn HB].
    exists (S (G + Bn)). intros X move m e Jac solver opt x So Oo Ta Cx po state k0 Hk0.
    (* a state that is not nearly stationary moves *)
    assert (forall y, n_cost X m e y <= c -> ~ (forall p, (p < n)%nat -> Rabs (gradient m e Jac y p) <= eps) ->
      forall lam d, lmin P <= lam <= lmax P c K -> eqn X n m e Jac lam y d -> 4 * delta <= den X n m e Jac lam y d) as Mv.
    { intros y Cy Ns lam d Lm E. destruct (Rle_lt_dec (maxabs n d) (eps / W)) as [M|M].
      - exfalso. apply Ns. intros p Hp. pose proof (gain_bound X n m e Jac P L K c lam _ d (eps / W) S0 Hl Hk Hc Lm E M (proj1 (Ta _ Cy)) p Hp) as Q. fold W in Q. replace (W * (eps / W)) with eps in Q by (field; lra). exact Q.
      - assert (0 < lam) as Lp by lra. pose proof (den_ge X n m e Jac lam _ d Lp E) as Q. pose proof (maxabs_sq n d) as Q2.
        assert (h <= lam * maxabs n d) as Q3 by (unfold h; apply Rmult_le_compat; lra).
        assert (h * h <= (lam * maxabs n d) * (lam * maxabs n d)) as Q4 by (apply Rmult_le_compat; lra).
        assert (lam * lam * (maxabs n d * maxabs n d) <= lam * lam * vdot n d d) as Q5 by (apply Rmult_le_compat_l; nra). unfold delta. lra. }
    set (found := fun b => exists j, (k0 <= j <= k0 + b)%nat /\ (forall i, (i < j)%nat -> n_continue X po opt (state i) = true) /\
        (nearly_stationary n m e Jac eps (n_x X po (state j)) \/ n_continue X po opt (state j) = false)).
    assert (forall k, found (S k) \/ ((forall i, (i < k0 + S k)%nat -> n_continue X po opt (state i) = true) /\ inv X move n m e Jac solver opt P c K kap mum delta psi (S k) (state (k0 + S k)%nat))) as T.
    { assert (forall k, (forall i, (i < k)%nat -> n_continue X po opt (state i) = true) -> n_continue X po opt (state k) = true -> forall i, (i < S k)%nat -> n_continue X po opt (state i) = true) as Nx.
      { intros k H1 H2 i Hi. destruct (Nat.eq_dec i k) as [->|]; auto. apply H1. lia. }
      induction k as [|k [(j & J1 & J2 & J3)|(J1 & J2)]].
      - destruct (n_continue X po opt (state k0)) eqn:C; [|left; exists k0; split; [lia|]; auto].
        destruct (all_below n (fun p => Rabs (gradient m e Jac (n_x X po (state k0)) p)) eps) as [Ns|Ns]; [left; exists k0; split; [lia|]; auto|right].
        replace (k0 + 1)%nat with (S k0) by lia. split; [apply Nx; auto|]. unfold state. cbn [after]. fold (state k0).
        destruct (inv_all kap mum Kp Mu X move m e Jac solver opt x So Oo Ta Cx k0 Hk0) as (I & _ & _). fold psi po in I. fold (state k0) in I. pose proof I as (_ & _ & _ & Cc' & _).
        eapply inv_restart; eauto; lra.
      - left. exists j. split; [lia|]. auto.
      - destruct (n_continue X po opt (state (k0 + S k)%nat)) eqn:C; [|left; exists (k0 + S k)%nat; split; [lia|]; auto].
        destruct (all_below n (fun p => Rabs (gradient m e Jac (n_x X po (state (k0 + S k)%nat)) p)) eps) as [Ns|Ns]; [left; exists (k0 + S k)%nat; split; [lia|]; auto|right].
        replace (k0 + S (S k))%nat with (S (k0 + S k)) by lia. split; [apply Nx; auto|]. unfold state. cbn [after]. fold (state (k0 + S k)%nat). pose proof J2 as (_ & _ & _ & Cc' & _).
        eapply inv_step; eauto; lra. }
    destruct (T (G + Bn)%nat) as [T1|[_ T1]]; [exact T1|exfalso].
    destruct T1 as (_ & _ & _ & _ & lam & _ & Lm & _ & [(_ & _ & T1 & _)|(_ & xp & r & g & b & Ek & _ & _ & _ & _ & _ & Tg & _ & Tb & _)]); [lia|].
    assert (g <= G)%nat as Hg.
    { apply INR_le. pose proof (cost_nonneg X m e xp). assert (INR g * delta <= c) as Q by lra. assert (INR g <= c / delta). { apply Rmult_le_reg_r with delta; auto. unfold Rdiv. rewrite Rmult_assoc, Rinv_l by lra. lra. } lra. }
    assert (kap ^ b <= Z) as Hb.
    { unfold Z. apply Rmult_le_reg_l with psi; [lra|]. replace (psi * (lmax P c K * gamma P ^ G / psi)) with (lmax P c K * gamma P ^ G) by (field; lra).
      eapply Rle_trans; [exact Tb|]. pose proof (Rle_pow (gamma P) g G Ga Hg). pose proof (pow_lt (gamma P) g ltac:(lra)). apply Rmult_le_compat; try lra; destruct r; try lra.
      - apply Rlt_le, Rdiv_lt_0_compat; nra.
      - apply Rle_trans with lam; [|lra]. apply Rmult_le_reg_r with (gamma P * kap); [nra|]. unfold Rdiv. rewrite Rmult_assoc, Rinv_l by nra. assert (1 <= gamma P * kap) by nra. nra. }
    assert (b < Bn)%nat as Hb2. { destruct (lt_dec b Bn) as [|Nb]; auto. specialize (HB b ltac:(lia)). rewrite Rabs_pos_eq in HB; [lra|]. apply pow_le. lra. }
    lia.
  Qed.
End Visits.

Lemma after_shift : forall X move n m (e : X -> vec R) po k (l : nst X po), after move n m e po (S k) l = after move n m e po k (n_iteration X move n m e po l).
Proof. induction k as [|k IH]; intros l; [reflexivity|]. cbn [after] in *. rewrite IH. reflexivity. Qed.
Lemma loop_after : forall X move n m (e : X -> vec R) po opt k f (l : nst X po), (k <= f)%nat -> (forall j, (j < k)%nat -> n_continue X po opt (after move n m e po j l) = true) ->
  n_continue X po opt (after move n m e po k l) = false -> n_loop X move n m e po opt f l = Some (after move n m e po k l).
Proof.
  induction k as [|k IH]; intros f l Hf Hc He.
  - cbn [after] in *. destruct f; cbn [n_loop]; rewrite He; reflexivity.
  - destruct f as [|f]; [lia|]. cbn [n_loop]. pose proof (Hc 0%nat ltac:(lia)) as H0. cbn [after] in H0. rewrite H0. rewrite after_shift in *. apply IH; [lia| |exact He]. intros j Hj. rewrite <- after_shift. apply Hc. lia.
Qed.
(* the damping of every state of a run *)
Theorem damping : forall n P L K c, steady P -> 0 <= L -> 0 <= K -> 0 <= c -> exists lo hi, 0 < lo /\ lo <= hi /\
  forall X move m (e : X -> vec R) Jac solver opt x, answers n m solver -> 0 <= o_dx opt /\ 0 <= o_dJ opt -> tame n m move e Jac c L K -> n_cost X m e x <= c ->
    let po := n_levenberg_marquardt X n m e Jac solver P in
    forall k, (forall j, (j < k)%nat -> n_continue X po opt (after move n m e po j (n_start X m e po opt x)) = true) ->
      let l := after move n m e po k (n_start X m e po opt x) in
      n_lsf X po l = false /\ (exists lam, lambda (fst (n_pol X po l)) = Some lam /\ lo <= lam <= hi) /\
      (n_status X po opt l = DX -> exists xp, n_cost X m e xp <= c /\ (n_x X po l = xp \/ exists d, maxabs n d <= o_dx opt /\ n_x X po l = move xp d) /\
         nearly_stationary n m e Jac ((INR n * L + hi * hi) * o_dx opt) xp).
Proof.
  intros n P L K c S0 Hl Hk Hc. exists (lmin P), (lmax P c K). pose proof (lmin_pos P S0) as L0. destruct (lmax_ge P c K Hk S0 Hc) as (X1 & _). pose proof (lmin_init P). split; auto. split; [lra|].
  intros X move m e Jac solver opt x So Oo Ta Cx po k Hk2 l. subst po. destruct (numbers P S0) as (kap & mum & Kp & Mu).
  destruct (inv_all n P L K c S0 Hk Hc kap mum Kp Mu X move m e Jac solver opt x So Oo Ta Cx k Hk2) as (I & _ & _). fold l in I.
  pose proof I as (Lf & _ & _ & _ & lam & I1 & I2 & _ & I3). split; auto. split; [exists lam; auto|]. intros Sd. apply dx_facts in Sd as [_ Sd].
  destruct I3 as [(_ & _ & _ & _ & _ & I3)|(_ & xp & r & g & b & _ & _ & _ & I4 & I5 & I6 & _ & _ & _ & _ & _ & I7)]; [lra|]. rewrite I5 in Sd.
  exists xp. split; auto. split.
  - destruct (n_pf X _ l); [left; tauto|right; exists (n_d X _ l); tauto].
  - intros p Hp. exact (gain_bound X n m e Jac P L K c lam xp _ _ S0 Hl Hk Hc I2 I4 Sd (proj1 (Ta _ I6)) p Hp).
Qed.

Theorem reaches : forall n P L K c eps, steady P -> 0 <= L -> 0 <= K -> 0 < eps ->
  exists N, forall X move m (e : X -> vec R) Jac solver opt x, answers n m solver -> 0 <= o_dx opt /\ 0 <= o_dJ opt -> tame n m move e Jac c L K -> n_cost X m e x <= c ->
    let po := n_levenberg_marquardt X n m e Jac solver P in let state k := after move n m e po k (n_start X m e po opt x) in
    forall k0, (forall j, (j < k0)%nat -> n_continue X po opt (state j) = true) ->
    exists k, (k0 <= k <= k0 + N)%nat /\ (forall j, (j < k)%nat -> n_continue X po opt (state j) = true) /\
      (nearly_stationary n m e Jac eps (n_x X po (state k)) \/
       n_optimize X move n m e po opt x = Some (state k) /\ (n_status X po opt (state k) = DX \/ n_status X po opt (state k) = DOBJECTIVE \/ (o_max opt <= Z.of_nat k)%Z)).
Proof.
  intros n P L K c eps S0 Hl Hk He. destruct (Rlt_le_dec c 0) as [Hc|Hc].
  { exists 0%nat. intros. pose proof (cost_nonneg X m e x). lra. }
  destruct (visits n P L K c S0 Hl Hk Hc eps He) as [N HN]. exists N. intros X move m e Jac solver opt x So Oo Ta Cx po state k0 Hk0.
  destruct (HN X move m e Jac solver opt x So Oo Ta Cx k0 Hk0) as (k & K1 & K2 & K3). exists k. split; auto. split; auto. destruct K3 as [K3|K3]; [left; auto|right].
  destruct (numbers P S0) as (kap & mum & Kp & Mu). fold po in K2, K3.
  assert (forall i, (i <= k)%nat -> inv X move n m e Jac solver opt P c K kap mum 0 (psi_of P kap) i (state i) /\ n_it X po (state i) = Z.of_nat i /\ (n_fail X po (state i) <= Z.of_nat i)%Z) as Q.
  { intros i Hi. apply (inv_all n P L K c S0 Hk Hc kap mum Kp Mu X move m e Jac solver opt x So Oo Ta Cx i). intros j Hj. apply K2. lia. }
  split.
  - unfold n_optimize. apply loop_after; auto. destruct k as [|k]; [lia|]. destruct (Q k ltac:(lia)) as (_ & Q1 & _). specialize (K2 k ltac:(lia)). unfold n_continue in K2. fold (state k) in K2. rewrite Q1 in K2. apply andb_true_iff in K2 as [K2 _]. apply andb_true_iff in K2 as [K2 _]. apply Z.ltb_lt in K2. lia.
  - destruct (Q k ltac:(lia)) as (I & Q1 & Q2). destruct (Z_le_gt_dec (o_max opt) (Z.of_nat k)) as [|G]; [auto|]. pose proof I as (Lf & _). fold po in Lf. fold (state k) in K3.
    unfold n_continue in K3. rewrite Q1, Lf, orb_false_r in K3. replace (Z.of_nat k <? o_max opt)%Z with true in K3 by (symmetry; apply Z.ltb_lt; lia).
    replace (n_fail X po (state k) <? o_max opt)%Z with true in K3 by (symmetry; apply Z.ltb_lt; lia). cbn [andb] in K3.
    unfold n_status. rewrite Q1, Lf. replace (o_max opt <=? Z.of_nat k)%Z with false by (symmetry; apply Z.leb_gt; lia). replace (o_max opt <=? n_fail X po (state k))%Z with false by (symmetry; apply Z.leb_gt; lia). cbn [orb].
    destruct (rle (n_mdx X po (state k)) (o_dx opt)) eqn:E1; [auto|]. destruct (rle (Rabs (n_dJ X po (state k))) (o_dJ opt)) eqn:E2; [auto|]. exfalso. apply rle_false in E1, E2.
    apply andb_false_iff in K3 as [K3|K3]; apply rlt_false in K3; lra.
Qed.
