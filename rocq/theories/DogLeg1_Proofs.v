(** * optimizeDogLeg: proofs of C65 *)
From Coq Require Import ZArith Reals List Bool Lra Lia.
From Verif Require Import Lib_Ring Lib_Real Policy_Model Policy_Spec Policy_Proofs Policy_Proofs2 DogLeg1_Model DogLeg1_Spec.
Import ListNotations.
Open Scope R_scope.

(** ** the step *)
Lemma beta_half : forall c D be, 0 < D -> c + D / 4 < D + 2 * c -> dl_beta c D (c + D / 4) = Some be -> 0 <= be <= 1.
Proof.
  intros c D be HD H B. unfold dl_beta in B.
  replace (c * c + D * (c + D / 4)) with (Rsqr (c + D / 2)) in B by (unfold Rsqr; field).
  destruct (rlt (Rsqr (c + D / 2)) 0); [discriminate|]. rewrite sqrt_Rsqr_abs in B.
  destruct (rle c 0) eqn:C; injection B as <-.
  - apply rle_true in C. unfold Rabs. destruct (Rcase_abs (c + D / 2)).
    + split.
      * apply Rmult_le_pos; [lra|]. apply Rlt_le, Rinv_0_lt_compat; lra.
      * apply Rmult_le_reg_r with D; auto. unfold Rdiv. rewrite Rmult_assoc, Rinv_l by lra. lra.
    + replace ((- c + (c + D / 2)) / D) with (1 / 2) by (field; lra). lra.
  - apply rle_false in C. rewrite Rabs_right by lra. replace ((c + D / 4) / (c + (c + D / 2))) with (1 / 2) by (field; lra). lra.
Qed.
Lemma beta_defined : forall n sd g (delta sdn : R), let d := vsub g sd in sdn = norm n sd -> (norm n sd <= delta \/ delta = norm n (vadd sd (vscale (1 / 2) d))) ->
  dl_beta (vdot n sd d) (vdot n d d) (delta * delta - sdn * sdn) <> None.
Proof.
  intros n sd g delta sdn d -> H. unfold dl_beta.
  destruct (rlt (vdot n sd d * vdot n sd d + vdot n d d * (delta * delta - norm n sd * norm n sd)) 0) eqn:E; [|discriminate]. exfalso. apply rlt_true in E.
  pose proof (dot_pos n d) as DP. destruct H as [H| ->].
  - assert (norm n sd * norm n sd <= delta * delta) by (apply Rmult_le_compat; auto; apply norm_pos).
    assert (0 <= vdot n d d * (delta * delta - norm n sd * norm n sd)) by (apply Rmult_le_pos; lra).
    pose proof (Rle_0_sqr (vdot n sd d)) as Q. unfold Rsqr in Q. lra.
  - rewrite !norm_sq, dot_add_l, !dot_add_r, !dot_scale_l, !dot_scale_r, (dot_comm n d sd) in E.
    set (c := vdot n sd d) in *. set (D := vdot n d d) in *. set (q := vdot n sd sd) in *.
    pose proof (Rle_0_sqr (c + D / 2)) as Q. unfold Rsqr in Q.
    assert (c * c + D * (q + 1 / 2 * c + (1 / 2 * c + 1 / 2 * (1 / 2 * D)) - q) = (c + D / 2) * (c + D / 2)) as A by field. lra.
Qed.

Section Loop.
  Context {W : Type}.
  Variable E : denv W.
  Variable o : dopts.
  Variable n nd : nat.

  Lemma pick_ok : forall delta sdn scl J sd gn w d1 dx L0 ty gn1 w1, 0 <= delta -> sdn = norm n sd -> 0 < scl -> 0 <= J ->
    pick E o n nd delta sdn scl J sd gn w = Fine (d1, dx, L0, ty, gn1, w1) ->
    norm n dx <= d1 /\ 0 <= L0 /\ (delta <> 0 -> d1 = delta) /\ (ty = TGN -> gn1 = Some dx) /\ (ty = TSD -> gn1 = gn /\ w1 = w) /\
    (ty <> TSD -> exists g, gn1 = Some g /\ (g, w1) = match gn with Some g => (g, w) | None => gn_step E o w sd end) /\
    (gn1 = None -> exists a, 0 <= a <= 1 /\ veq n dx (vscale a sd)) /\ (forall g, gn1 = Some g -> dogleg n sd g dx).
  Proof.
    intros delta sdn scl J sd gn w d1 dx L0 ty gn1 w1 Hd -> Hs HJ P. unfold pick in P. pose proof (norm_pos n sd) as NP.
    destruct (rle delta (norm n sd) && negb (if Req_EM_T delta 0 then true else false)) eqn:C.
    - injection P as <- <- <- <- <- <-. apply andb_true_iff in C. destruct C as (C1 & C2). apply rle_true in C1.
      destruct (Req_EM_T delta 0) as [|D0]; [discriminate|]. assert (0 < delta) by lra.
      assert (0 <= delta / norm n sd) as Q0. { apply Rmult_le_pos; [lra|]. apply Rlt_le, Rinv_0_lt_compat. lra. }
      assert (delta / norm n sd <= 1) as Q1. { apply Rmult_le_reg_r with (norm n sd); [lra|]. unfold Rdiv. rewrite Rmult_assoc, Rinv_l by lra. lra. }
      split; [rewrite norm_scale by auto; right; field; lra|].
      split; [apply Rmult_le_pos; [apply Rmult_le_pos; lra|]; apply Rlt_le, Rinv_0_lt_compat; lra|].
      split; [auto|]. split; [discriminate|]. split; [auto|]. split; [congruence|].
      split; [intros _; exists (delta / norm n sd); split; [lra|intros i _; reflexivity]|].
      intros g _. left. exists (delta / norm n sd). split; [lra|intros i _; reflexivity].
    - destruct (match gn with Some g => (g, w) | None => gn_step E o w sd end) as [g w2] eqn:G.
      destruct (if Req_EM_T delta 0 then negb (Nat.eqb nd n) else false); [discriminate|].
      assert (delta <> 0 -> norm n sd < delta) as Hlt.
      { intros N. apply andb_false_iff in C. destruct C as [C|C]; [apply rle_false in C; auto|]. destruct (Req_EM_T delta 0); [contradiction|discriminate]. }
      set (d := vsub g sd) in *. set (d1' := if Req_EM_T delta 0 then norm n (vadd sd (vscale (1 / 2) d)) else delta) in *.
      assert (delta <> 0 -> d1' = delta) as Hd1. { intros N. subst d1'. destruct (Req_EM_T delta 0); [contradiction|auto]. }
      destruct (rle (norm n g) d1') eqn:L.
      + injection P as <- <- <- <- <- <-. apply rle_true in L.
        split; [auto|]. split; [auto|]. split; [auto|]. split; [auto|]. split; [discriminate|]. split; [eauto|]. split; [discriminate|].
        intros g' Eg. injection Eg as <-. right. exists 1. split; [lra|]. intros i _. unfold vadd, vscale, vsub. cbn. ring.
      + apply rle_false in L. destruct (negb (Nat.eqb nd n)); [discriminate|].
        destruct (dl_beta (vdot n sd d) (vdot n d d) (d1' * d1' - norm n sd * norm n sd)) as [be|] eqn:B; [|discriminate].
        injection P as <- <- <- <- <- <-.
        destruct (dl_tail n sd g delta be _ Hd Hlt L B eq_refl) as (T1 & T2). fold d in T1, T2. fold d1' in T1, T2.
        assert (0 <= be <= 1) as Hb.
        { destruct (Rle_dec (norm n sd) d1') as [Le|Gt]; [auto|]. assert (delta = 0) as D0. { destruct (Req_dec delta 0) as [|N]; auto. specialize (Hlt N). rewrite (Hd1 N) in Gt. lra. }
          assert (d1' = norm n (vadd sd (vscale (1 / 2) d))) as Ed. { subst d1'. destruct (Req_EM_T delta 0); [auto|contradiction]. }
          assert (d1' * d1' - norm n sd * norm n sd = vdot n sd d + vdot n d d / 4) as Ex.
          { rewrite Ed. rewrite !norm_sq, dot_add_l, !dot_add_r, !dot_scale_l, !dot_scale_r, (dot_comm n d sd). field. }
          assert (0 < vdot n d d) as HD.
          { destruct (Rtotal_order (vdot n d d) 0) as [l|[e|g0]]; auto; [pose proof (dot_pos n d); lra|]. exfalso. apply dot_zero in e.
            pose proof (sub_zero_norm n g sd e). pose proof (half_sum_ext n g sd e) as HS. fold d in HS. lra. }
          rewrite Ex in B. apply (beta_half (vdot n sd d) (vdot n d d) be HD); auto.
          assert (0 <= d1') as Dp by (rewrite Ed; apply norm_pos).
          assert (d1' * d1' < norm n g * norm n g) as LL by (apply Rmult_le_0_lt_compat; auto).
          rewrite (norm_sq n g) in LL. assert (vdot n g g = vdot n sd sd + 2 * vdot n sd d + vdot n d d) as Eg.
          { subst d. rewrite !dot_sub_l, !dot_sub_r. rewrite (dot_comm n g sd). ring. }
          rewrite norm_sq in Ex. lra. }
        split; [right; exact T1|]. split; [apply Rmult_le_pos; [apply Rmult_le_pos; lra|auto]|]. split; [auto|]. split; [discriminate|]. split; [discriminate|].
        split; [eauto|]. split; [discriminate|]. intros g' Eg. injection Eg as <-. right. exists be. split; [auto|intros i _; reflexivity].
  Qed.

  Lemma pick_num : forall delta sd scl J gn w, 0 <= delta -> pick E o n nd delta (norm n sd) scl J sd gn w <> NotNum /\ (nd = n -> pick E o n nd delta (norm n sd) scl J sd gn w <> Undef) /\
    pick E o n nd delta (norm n sd) scl J sd gn w <> NoFuel.
  Proof.
    intros delta sd scl J gn w Hd. unfold pick. destruct (rle delta (norm n sd) && negb (if Req_EM_T delta 0 then true else false)) eqn:C; [repeat split; discriminate|].
    destruct (match gn with Some g => (g, w) | None => gn_step E o w sd end) as [g w2].
    assert (nd = n -> negb (Nat.eqb nd n) = false) as A by (intros ->; rewrite Nat.eqb_refl; auto).
    destruct (if Req_EM_T delta 0 then negb (Nat.eqb nd n) else false) eqn:U.
    { split; [discriminate|]. split; [|discriminate]. intros e. rewrite (A e) in U. destruct (Req_EM_T delta 0); discriminate. }
    set (d := vsub g sd). set (d1' := if Req_EM_T delta 0 then norm n (vadd sd (vscale (1 / 2) d)) else delta).
    destruct (rle (norm n g) d1'); [repeat split; discriminate|]. destruct (negb (Nat.eqb nd n)) eqn:U2; [split; [discriminate|]; split; [|discriminate]; intros e; specialize (A e); discriminate|].
    destruct (dl_beta (vdot n sd d) (vdot n d d) (d1' * d1' - norm n sd * norm n sd)) eqn:B; [repeat split; discriminate|]. exfalso.
    apply (beta_defined n sd g d1' (norm n sd)) in B; auto. subst d1'. destruct (Req_EM_T delta 0) as [e|N]; [right; reflexivity|left].
    rewrite andb_true_r in C. apply rle_false in C. lra.
  Qed.

  (** ** keeping and undoing *)
  Lemma ratio_kept : forall p c L0, 0 <= L0 -> nonneg c -> xgt (ratio p c L0) 0 = true -> exists r, c = Fin r /\ r < p.
  Proof.
    intros p c L0 HL Hc H. unfold ratio, xdivr, xsub in H. assert (rlt L0 0 = false) as F by (apply rlt_false; auto).
    destruct c as [r| | |]; cbn in H, Hc; try contradiction; try (rewrite F in H; discriminate).
    - exists r. split; auto. unfold xdiv in H. destruct (Req_EM_T L0 0).
      + destruct (Req_EM_T (p - r) 0); [cbn in H; apply rlt_true in H; lra|]. destruct (Rlt_dec 0 (p - r)); [lra|discriminate].
      + cbn in H. apply rlt_true in H. assert (p - r = (p - r) / L0 * L0) by (field; auto). assert (0 < (p - r) / L0 * L0) by (apply Rmult_lt_0_compat; lra). lra.
    - cbn in H. apply rlt_true in H. lra.
  Qed.
  Lemma ratio_undone : forall p r L0, 0 <= L0 -> xgt (ratio p (Fin r) L0) 0 = false -> p <= r.
  Proof.
    intros p r L0 HL H. unfold ratio, xdivr, xsub, xdiv in H. destruct (Req_EM_T L0 0).
    - destruct (Req_EM_T (p - r) 0); [lra|]. destruct (Rlt_dec 0 (p - r)); [discriminate|lra].
    - cbn in H. apply rlt_false in H. destruct (Rle_dec p r); auto. exfalso. assert (0 < (p - r) / L0) by (apply Rdiv_lt_0_compat; lra). lra.
  Qed.
  Lemma ratio_num : forall p c L0, ratio p c L0 <> Nan.
  Proof. intros. unfold ratio. destruct (xdivr (xsub p c) L0); discriminate. Qed.

  Lemma new_delta_after : forall p c L0 d1 ty sd gn1 dx sys, (ty = TGN -> gn1 = Some dx) ->
    radius_after n (mkTrial d1 ty sd gn1 dx L0 p c (xgt (ratio p c L0) 0) sys) (new_delta n (ratio p c L0) d1 ty dx gn1).
  Proof.
    intros p c L0 d1 ty sd gn1 dx sys HG. unfold radius_after. cbn [t_J t_cost t_L0 t_kept t_delta t_type t_dx].
    pose proof (ratio_num p c L0) as N. set (rho := ratio p c L0) in *. clearbody rho. unfold new_delta.
    split; [|split; [|split]].
    - intros K. assert (xgt rho (3 / 4) = false) as A. { destruct rho; cbn in *; auto. apply rlt_false in K. apply rlt_false. lra. }
      assert (xle rho 0 = true) as B. { destruct rho; cbn in *; auto; try discriminate; try (exfalso; apply N; reflexivity). apply rlt_false in K. apply rle_true. lra. }
      rewrite A, K, B. cbn. destruct ty; auto. rewrite (HG eq_refl). auto.
    - intros K L. assert (xgt rho (3 / 4) = false) as A. { destruct rho; cbn in *; auto; try discriminate. apply rlt_true in L. apply rlt_false. lra. }
      rewrite A, K, L. reflexivity.
    - intros K. rewrite K. unfold Rmax. destruct (rlt d1 (3 * norm n dx)) eqn:L; [apply rlt_true in L|apply rlt_false in L]; destruct (Rle_dec d1 (3 * norm n dx)); lra.
    - intros K L. rewrite L, K, andb_false_r. assert (xle rho 0 = false) as B; [|rewrite B; auto].
      destruct rho; cbn in *; auto; try discriminate. apply rlt_false in K. apply rle_false. lra.
  Qed.
  Lemma new_delta_pos : forall rho d1 ty dx gn1, 0 <= d1 -> 0 <= new_delta n rho d1 ty dx gn1.
  Proof.
    intros. unfold new_delta. pose proof (norm_pos n dx). destruct (xgt rho (3 / 4)); [destruct (rlt d1 (3 * norm n dx)); lra|]. destruct (xgt rho 0 && xlt rho (1 / 4)); [lra|].
    destruct (xle rho 0); [|auto]. destruct ty; try lra. destruct gn1 as [g|]; try lra. pose proof (norm_pos n g). lra.
  Qed.

  (** ** histories *)
  Section Hist.
    Context {V : Type}.
    Variables (val saved : W -> V) (cost : V -> ext) (lin : V -> mat R * vec R) (sol : V -> vec R -> Prop).
    Hypothesis F : faithfulD E val saved cost lin sol.
    Hypothesis CN : forall v, nonneg (cost v).
    Notation walk := (walkD n (movesD E val) cost lin sol).

    Lemma walk_snoc : forall ts v u t v', walk v ts u -> walk u [t] v' -> walk v (ts ++ [t]) v'.
    Proof.
      induction ts as [|t0 ts IH]; intros v u t v' H1 H2.
      - cbn in H1. subst u. exact H2.
      - cbn [app walkD] in *. destruct H1 as (A & B & C & D & x & M & Cx & K). split; [auto|]. split; [auto|]. split; [auto|]. split; [auto|].
        exists x. split; [auto|]. split; [auto|]. destruct (t_kept t0); destruct K as (K1 & K2); (split; [auto|]); eapply IH; eauto.
    Qed.
    Lemma radii_snoc : forall ts t, radii n ts -> (forall ts' t0, ts = ts' ++ [t0] -> exists d, radius_after n t0 d /\ (d <> 0 -> t_delta t = d)) -> radii n (ts ++ [t]).
    Proof.
      induction ts as [|t0 ts IH]; intros t H1 H2; [exact I|]. destruct ts as [|t1 ts].
      - cbn. split; [|exact I]. exact (H2 [] t0 eq_refl).
      - cbn [app] in *. destruct H1 as (A & B). split; [exact A|]. apply IH; auto. intros ts' tt Et. apply (H2 (t0 :: ts') tt). rewrite Et. reflexivity.
    Qed.

    Definition inv (v0 : V) (s : dstate W) : Prop :=
      walk v0 (rev (slog s)) (val (sw s)) /\ cost (val (sw s)) = Fin (sp s) /\ sJ s = sp s /\ ssys s = lin (val (sw s)) /\ 0 <= sdelta s /\
      Forall (step_ok n) (slog s) /\ radii n (rev (slog s)) /\ (forall t r, slog s = t :: r -> radius_after n t (sdelta s)).
    Definition gn_from (v : V) (sd : vec R) (gn : option (vec R)) : Prop := forall g, gn = Some g -> sol v g \/ g = sd.

    Lemma gn_step_ok : forall w sd g w1, gn_step E o w sd = (g, w1) -> (sol (val w) g \/ g = sd) /\ val w1 = val w.
    Proof.
      intros w sd g w1 H. unfold gn_step in H. pose proof (h_solve _ _ _ _ _ _ F w) as S. destruct (y_solve E w) as [[ok g1] wa] eqn:Es. cbn in S. destruct S as (S1 & S2 & S3).
      destruct ok; [injection H as <- <-; auto|]. pose proof (h_fallback _ _ _ _ _ _ F wa) as T. destruct (y_fallback E wa) as [[ok2 g2] wb] eqn:Ef. cbn in T. destruct T as (T1 & T2 & T3).
      injection H as <- <-. split.
      - destruct ok2; auto. left. rewrite <- S2. auto.
      - destruct (0 >? o_fails o)%Z; [rewrite (proj1 (h_robust _ _ _ _ _ _ F wb))|]; congruence.
    Qed.

    Lemma attempt_inv : forall v0 s scl gn s1 gn1 rho, inv v0 s -> 0 < scl -> let sd := sd_of n (ssys s) in gn_from (val (sw s)) sd gn ->
      attempt E o n nd s sd (norm n sd) scl gn = Fine (s1, gn1, rho) ->
      inv v0 s1 /\ sit s1 = sit s /\ (xgt rho 0 = false -> ssys s1 = ssys s /\ gn_from (val (sw s1)) sd gn1).
    Proof.
      intros v0 s scl gn s1 gn1 rho (I1 & I2 & I3 & I4 & I5 & I6 & I7 & I8) Hs sd HG A. unfold attempt in A.
      assert (0 <= sJ s) as HJ. { rewrite I3. pose proof (CN (val (sw s))) as Q. rewrite I2 in Q. exact Q. }
      destruct (pick E o n nd (sdelta s) (norm n sd) scl (sJ s) sd gn (sw s)) as [[[[[[d1 dx] L0] ty] gn2] w0]| | |] eqn:P; cbn [obind] in A; try discriminate.
      destruct (pick_ok _ _ _ _ _ _ _ _ _ _ _ _ _ I5 eq_refl Hs HJ P) as (P1 & P2 & P3 & P4 & P5 & P6 & P7 & P8).
      assert (gn_from (val (sw s)) sd gn2 /\ val w0 = val (sw s)) as (G1 & G2).
      { assert (ty = TSD \/ ty <> TSD) as [T|T] by (destruct ty; auto; right; discriminate).
        - destruct (P5 T) as (-> & ->). auto.
        - destruct (P6 T) as (g & Eg & Q). destruct gn as [g'|].
          + injection Q as Q1 Q2. subst g w0 gn2. split; [exact HG|reflexivity].
          + symmetry in Q. apply gn_step_ok in Q. destruct Q as (Q1 & Q2). split; auto. intros g' Eq. rewrite Eg in Eq. injection Eq as <-. exact Q1. }
      assert (0 <= d1) as Hd1 by (pose proof (norm_pos n dx); lra).
      pose proof (h_apply _ _ _ _ _ _ F w0 dx) as HA. destruct (y_apply E w0 dx) as [dX w1] eqn:EA.
      pose proof (h_eval _ _ _ _ _ _ F w1) as HE. destruct (y_eval E w1) as [c w2] eqn:EE. cbn [fst snd] in HA, HE. destruct HE as (E1 & E2 & E3).
      assert (movesD E val dx (val (sw s)) (val w1)) as MV. { exists w0. rewrite EA. auto. }
      assert (nonneg c) as NC by (rewrite E1; apply CN).
      set (rh := ratio (sp s) c L0) in *.
      assert (forall vv, (if xgt rh 0 then vv = val w1 else vv = val (sw s)) ->
        walk v0 (rev (slog s) ++ [mkTrial d1 ty sd gn2 dx L0 (sp s) c (xgt rh 0) (ssys s)]) vv) as WK.
      { intros vv Hv. eapply walk_snoc; [exact I1|]. cbn [walkD t_J t_sys t_sd t_gn t_dx t_cost t_kept]. split; [auto|]. split; [auto|].
        split; [unfold sd; rewrite I4; auto|]. split; [exact G1|]. exists (val w1). split; [exact MV|]. split; [auto|].
        destruct (xgt rh 0) eqn:K.
        - split; [|exact Hv]. destruct (ratio_kept _ _ _ P2 NC K) as (r & R1 & R2). eauto.
        - split; [|exact Hv]. intros r Er. eapply ratio_undone; [exact P2|]. subst rh. rewrite Er in K. exact K. }
      assert (step_ok n (mkTrial d1 ty sd gn2 dx L0 (sp s) c (xgt rh 0) (ssys s))) as SO. { repeat split; cbn; auto. }
      assert (forall dl, (sdelta s <> 0 -> dl = sdelta s) -> d1 = dl -> radii n (rev (slog s) ++ [mkTrial d1 ty sd gn2 dx L0 (sp s) c (xgt rh 0) (ssys s)])) as RD.
      { intros dl Hl Edl. apply radii_snoc; [auto|]. intros ts' t0 Et. exists (sdelta s). split; [|cbn; intros; rewrite Edl; auto].
        apply (f_equal (@rev trial)) in Et. rewrite rev_involutive, rev_app_distr in Et. cbn in Et. exact (I8 _ _ Et). }
      specialize (RD d1 P3 eq_refl).
      pose proof (new_delta_after (sp s) c L0 d1 ty sd gn2 dx (ssys s) P4) as RA. fold rh in RA.
      pose proof (new_delta_pos rh d1 ty dx gn2 Hd1) as NDP.
      destruct (xgt rh 0) eqn:K.
      - destruct (ratio_kept _ _ _ P2 NC K) as (r & -> & R2).
        pose proof (h_build _ _ _ _ _ _ F w2) as HB. destruct (y_build E w2) as [sys w3] eqn:EB. cbn [fst snd] in HB. destruct HB as (B1 & B2 & B3).
        injection A as <- <- <-. assert (rlt r (sp s) = true) as RL by (apply rlt_true; auto). rewrite RL.
        split; [|split; [reflexivity|]].
        + unfold inv. cbn [slog sw sp sJ ssys sdelta rev]. split; [apply WK; congruence|]. split; [congruence|]. split; [auto|]. split; [congruence|]. split; [auto|].
          split; [constructor; auto|]. split; [exact RD|]. intros t r0 Et. injection Et as <- <-. exact RA.
        + intros K'. exfalso. fold rh in K'. congruence.
      - pose proof (h_revert _ _ _ _ _ _ F w2) as HR. pose proof (h_eval _ _ _ _ _ _ F (y_revert E w2)) as HE2. destruct (y_eval E (y_revert E w2)) as [c2 w4] eqn:EE2. cbn [fst snd] in HE2. destruct HE2 as (Q1 & Q2 & Q3).
        assert (val w4 = val (sw s)) as V4 by congruence.
        destruct c2 as [j| | |]; try discriminate. assert (j = sp s) as ->. { assert (Fin j = Fin (sp s)) as Q by congruence. injection Q. auto. }
        injection A as <- <- <-. assert (rlt (sp s) (sp s) = false) as RL by (apply rlt_false; lra). rewrite RL.
        split; [|split; [reflexivity|]].
        + unfold inv. cbn [slog sw sp sJ ssys sdelta rev]. split; [apply WK; auto|]. split; [congruence|]. split; [auto|]. split; [congruence|]. split; [auto|].
          split; [constructor; auto|]. split; [exact RD|]. intros t r0 Et. injection Et as <- <-. exact RA.
        + intros _. cbn [ssys sw]. split; auto. rewrite V4. auto.
    Qed.

    Lemma xlt_ngt : forall x, xlt x 0 = true -> xgt x 0 = false.
    Proof. intros [r| | |]; cbn; auto; try discriminate. intros H. apply rlt_true in H. apply rlt_false. lra. Qed.

    Lemma inner_inv : forall fuel v0 s scl gn s1, inv v0 s -> 0 < scl -> let sd := sd_of n (ssys s) in gn_from (val (sw s)) sd gn ->
      inner E o n nd fuel s sd (norm n sd) scl gn = Fine s1 -> inv v0 s1 /\ sit s1 = sit s.
    Proof.
      induction fuel as [|f IH]; intros v0 s scl gn s1 Hi Hs sd HG H; [discriminate|]. cbn [inner] in H.
      destruct (attempt E o n nd s sd (norm n sd) scl gn) as [[[s2 gn1] rho]| | |] eqn:A; cbn [obind] in H; try discriminate.
      destruct (attempt_inv v0 s scl gn s2 gn1 rho Hi Hs HG A) as (B1 & B2 & B3).
      destruct (xlt rho 0 && rlt (o_dX o) (sdelta s2)) eqn:C.
      - apply andb_true_iff in C. destruct (B3 (xlt_ngt _ (proj1 C))) as (B4 & B5). unfold sd in H, B5. rewrite <- B4 in H, B5.
        destruct (IH v0 s2 scl gn1 s1 B1 Hs B5 H). split; auto. congruence.
      - injection H as <-. auto.
    Qed.

    Lemma scale_pos : forall H (r : vec R), vdot n (mvmul n H r) (mvmul n H r) <> 0 -> 0 < vdot n r r / vdot n (mvmul n H r) (mvmul n H r).
    Proof.
      intros H r N. pose proof (dot_pos n (mvmul n H r)). assert (0 < vdot n (mvmul n H r) (mvmul n H r)) by lra. apply Rdiv_lt_0_compat; auto.
      destruct (Rtotal_order (vdot n r r) 0) as [l|[e|g]]; auto; [pose proof (dot_pos n r); lra|]. exfalso. apply dot_zero in e. apply N.
      assert (forall i, mvmul n H r i = 0) as Z. { intros i. unfold mvmul. change (ksum n (fun k => (H i k * r k)%K) = k0). apply ksum_zero. intros k Hk. rewrite (e k Hk). change (H i k * 0 = 0). ring. }
      unfold vdot. change (ksum n (fun i => (mvmul n H r i * mvmul n H r i)%K) = k0). apply ksum_zero. intros i Hi. rewrite Z. change (0 * 0 = 0). ring.
    Qed.

    Lemma pass_inv : forall fuel v0 s s1, inv v0 s -> pass E o n nd fuel s = Fine s1 -> inv v0 s1 /\ sit s1 = (sit s + 1)%Z.
    Proof.
      intros fuel v0 s s1 Hi H. unfold pass in H. destruct (ssys s) as [HH r] eqn:ES.
      destruct (Req_EM_T (vdot n (mvmul n HH r) (mvmul n HH r)) 0) as [|N]; [discriminate|]. pose proof (scale_pos HH r N) as SP.
      set (scl := vdot n r r / vdot n (mvmul n HH r) (mvmul n HH r)) in *.
      assert (vscale scl r = sd_of n (ssys s)) as Esd by (rewrite ES; reflexivity). rewrite Esd in H.
      destruct (inner E o n nd fuel s (sd_of n (ssys s)) (norm n (sd_of n (ssys s))) scl None) as [s2| | |] eqn:A; cbn [obind] in H; try discriminate. injection H as <-.
      assert (gn_from (val (sw s)) (sd_of n (ssys s)) None) as G by (intros g Eg; discriminate).
      destruct (inner_inv fuel v0 s scl None s2 Hi SP G A) as (B1 & B2). cbn. split; [exact B1|congruence].
    Qed.
    Lemma passes_inv : forall fuel k v0 s s1, inv v0 s -> (0 <= sit s)%Z -> passes E o n nd k fuel s = Fine s1 -> inv v0 s1 /\ (0 <= sit s1 <= Z.max (sit s) (o_max o))%Z /\ continue_ o s1 = false.
    Proof.
      intros fuel. induction k as [|k IH]; intros v0 s s1 Hi H0 H; cbn [passes] in H; destruct (continue_ o s) eqn:C; try discriminate; try (injection H as <-; split; [auto|]; split; [lia|auto]).
      destruct (pass E o n nd fuel s) as [s2| | |] eqn:P; cbn [obind] in H; try discriminate. destruct (pass_inv _ _ _ _ Hi P) as (B1 & B2).
      destruct (IH v0 s2 s1 B1 ltac:(lia) H) as (D1 & D2 & D3). split; auto. split; auto. unfold continue_ in C. rewrite !andb_true_iff in C. destruct C as ((C & _) & _). apply Z.ltb_lt in C. lia.
    Qed.

    Lemma walk_least : forall ts v v' J, cost v = Fin J -> walk v ts v' -> exists Jf, cost v' = Fin Jf /\ Jf <= J /\ (forall t c, In t ts -> t_cost t = Fin c -> Jf <= c) /\
      (v' = v \/ exists t, In t ts /\ t_kept t = true /\ t_cost t = Fin Jf).
    Proof.
      induction ts as [|t ts IH]; intros v v' J HJ H; cbn [walkD] in H.
      - subst v'. exists J. split; [auto|]. split; [lra|]. split; [intros t c []|auto].
      - destruct H as (A & _ & _ & _ & u & _ & Cu & K). assert (J = t_J t) as -> by congruence. destruct (t_kept t) eqn:KT; destruct K as (K1 & K2).
        + destruct K1 as (c & Ec & Lc). destruct (IH u v' c ltac:(congruence) K2) as (Jf & J1 & J2 & J3 & J4). exists Jf. split; auto. split; [lra|]. split.
          * intros t' c' [<-|I'] Ec'; [assert (c' = c) by congruence; lra|eauto].
          * right. destruct J4 as [->|(t' & I' & Kt & Ct)]; [|exists t'; split; [right|]; auto]. exists t. split; [left; auto|]. split; auto. congruence.
        + destruct (IH v v' (t_J t) ltac:(congruence) K2) as (Jf & J1 & J2 & J3 & J4). exists Jf. split; auto. split; [lra|]. split.
          * intros t' c' [<-|I'] Ec'; [specialize (K1 _ Ec'); lra|eauto].
          * destruct J4 as [->|(t' & I' & Kt & Ct)]; [auto|right; exists t'; split; [right|]; auto].
    Qed.

    Lemma start_inv : forall w s0, dstart E o w = Fine s0 -> inv (val w) s0 /\ sit s0 = 0%Z /\ cost (val w) = Fin (sJ s0) /\ sdelta s0 = 0.
    Proof.
      intros w s0 H. unfold dstart in H. pose proof (h_eval _ _ _ _ _ _ F w) as HE. destruct (y_eval E w) as [c w1] eqn:EE. cbn [fst snd] in HE. destruct HE as (E1 & E2 & E3).
      destruct c as [J| | |]; try discriminate. pose proof (h_build _ _ _ _ _ _ F w1) as HB. destruct (y_build E w1) as [sys w2] eqn:EB. cbn [fst snd] in HB. destruct HB as (B1 & B2 & B3).
      injection H as <-. split; [|cbn; auto]. unfold inv. cbn. split; [congruence|]. split; [congruence|]. split; [auto|]. split; [congruence|]. split; [lra|].
      split; [constructor|]. split; [exact I|]. discriminate.
    Qed.

    Lemma run_history : forall fuel w r s, optimizeDogLeg E o n nd fuel w = Fine (r, s) ->
      walk (val w) (rev (slog s)) (val (sw s)) /\ radii n (rev (slog s)) /\ Forall (step_ok n) (slog s) /\
      cost (val w) = Fin (r_JStart r) /\ cost (val (sw s)) = Fin (r_JFinal r) /\ r_JFinal r <= r_JStart r /\
      (forall t c, In t (slog s) -> t_cost t = Fin c -> r_JFinal r <= c) /\
      (val (sw s) = val w \/ exists t, In t (slog s) /\ t_kept t = true /\ t_cost t = Fin (r_JFinal r)) /\
      (0 <= r_it r <= Z.max 0 (o_max o))%Z /\ ((r_it r < o_max o)%Z -> r_dX r <= o_dX o \/ Rabs (r_dJ r) <= o_dJ o).
    Proof.
      intros fuel w r s H. unfold optimizeDogLeg in H. destruct (dstart E o w) as [s0| | |] eqn:S0; cbn [obind] in H; try discriminate.
      destruct (passes E o n nd (Z.to_nat (o_max o)) fuel s0) as [s1| | |] eqn:P; cbn [obind] in H; try discriminate. injection H as <- <-.
      destruct (start_inv _ _ S0) as (A1 & A2 & A3 & _). destruct (passes_inv _ _ _ _ _ A1 ltac:(lia) P) as ((I1 & I2 & I3 & I4 & I5 & I6 & I7 & I8) & B2 & B3).
      destruct (walk_least _ _ _ _ A3 I1) as (Jf & J1 & J2 & J3 & J4). assert (Jf = sJ s1) as -> by congruence. cbn.
      split; [auto|]. split; [auto|]. split; [auto|]. split; [auto|]. split; [congruence|]. split; [auto|].
      split; [intros t c It Ec; apply (J3 t c); auto; apply in_rev; rewrite rev_involutive; auto|].
      split; [destruct J4 as [J4|(t & It & J4)]; [auto|right; exists t; split; auto; apply in_rev; auto]|].
      split; [rewrite A2 in B2; lia|]. intros L. unfold continue_ in B3. apply Z.ltb_lt in L. rewrite L in B3. cbn in B3. apply andb_false_iff in B3.
      destruct B3 as [B3|B3]; apply rlt_false in B3; auto.
    Qed.
  End Hist.

  (** ** termination *)
  Lemma attempt_delta : forall s sd scl gn s1 gn1 rho, 0 <= sdelta s -> 
    attempt E o n nd s sd (norm n sd) scl gn = Fine (s1, gn1, rho) -> 0 <= sdelta s1 /\ (xlt rho 0 = true -> sdelta s <> 0 -> sdelta s1 <= sdelta s / 2).
  Proof.
    intros s sd scl gn s1 gn1 rho Hd A. unfold attempt in A.
    destruct (pick E o n nd (sdelta s) (norm n sd) scl (sJ s) sd gn (sw s)) as [[[[[[d1 dx] L0] ty] gn2] w0]| | |] eqn:P; cbn [obind] in A; try discriminate.
    assert (0 <= d1 /\ (sdelta s <> 0 -> d1 = sdelta s) /\ (ty = TGN -> norm n dx <= d1 /\ gn2 = Some dx)) as (D1 & D2 & D3).
    { unfold pick in P. destruct (rle (sdelta s) (norm n sd) && negb (if Req_EM_T (sdelta s) 0 then true else false)).
      { injection P as <- <- <- <- <- <-. split; auto. split; auto. discriminate. }
      destruct (match gn with Some g => (g, sw s) | None => gn_step E o (sw s) sd end) as [g w2].
      destruct (if Req_EM_T (sdelta s) 0 then negb (Nat.eqb nd n) else false); [discriminate|].
      set (d1' := if Req_EM_T (sdelta s) 0 then norm n (vadd sd (vscale (1 / 2) (vsub g sd))) else sdelta s) in *.
      assert (0 <= d1' /\ (sdelta s <> 0 -> d1' = sdelta s)) as (Q1 & Q2). { subst d1'. destruct (Req_EM_T (sdelta s) 0); [split; [apply norm_pos|contradiction]|auto]. }
      destruct (rle (norm n g) d1') eqn:L; [injection P as <- <- <- <- <- <-; apply rle_true in L; auto|].
      destruct (negb (Nat.eqb nd n)); [discriminate|]. destruct (dl_beta _ _ _); [|discriminate]. injection P as <- <- <- <- <- <-. split; auto. split; auto. discriminate. }
    destruct (y_apply E w0 dx) as [dX w1]. destruct (y_eval E w1) as [c w2].
    pose proof (new_delta_pos (ratio (sp s) c L0) d1 ty dx gn2 D1) as NP.
    assert (xlt (ratio (sp s) c L0) 0 = true -> new_delta n (ratio (sp s) c L0) d1 ty dx gn2 <= d1 / 2) as ND.
    { intros X. set (rh := ratio (sp s) c L0) in *. clearbody rh. unfold new_delta.
      assert (xgt rh (3 / 4) = false /\ xgt rh 0 = false /\ xle rh 0 = true) as (X1 & X2 & X3).
      { destruct rh; cbn in *; auto; try discriminate. apply rlt_true in X. split; [apply rlt_false; lra|]. split; [apply rlt_false; lra|apply rle_true; lra]. }
      rewrite X1, X2, X3. cbn. destruct ty; try lra. destruct (D3 eq_refl) as (D4 & ->). lra. }
    destruct (if xgt (ratio (sp s) c L0) 0 then let '(sys, w3) := y_build E w2 in (sys, c, w3) else let '(c2, w4) := y_eval E (y_revert E w2) in (ssys s, c2, w4)) as [[sys j] w3].
    destruct j; try discriminate. injection A as <- <- <-. cbn. split; auto. intros X N. rewrite <- (D2 N). auto.
  Qed.
  Lemma attempt_fuel : forall s sd scl gn, 0 <= sdelta s -> attempt E o n nd s sd (norm n sd) scl gn <> NoFuel.
  Proof.
    intros s sd scl gn Hd. unfold attempt. destruct (pick_num (sdelta s) sd scl (sJ s) gn (sw s) Hd) as (_ & _ & P).
    destruct (pick E o n nd (sdelta s) (norm n sd) scl (sJ s) sd gn (sw s)) as [[[[[[d1 dx] L0] ty] gn2] w0]| | |]; cbn [obind]; try discriminate; [|contradiction].
    destruct (y_apply E w0 dx) as [dX w1]. destruct (y_eval E w1) as [c w2].
    destruct (if xgt (ratio (sp s) c L0) 0 then let '(sys, w3) := y_build E w2 in (sys, c, w3) else let '(c2, w4) := y_eval E (y_revert E w2) in (ssys s, c2, w4)) as [[sys j] w3].
    destruct j; discriminate.
  Qed.
  Lemma inner_delta : forall fuel s sd scl gn s1, 0 <= sdelta s -> inner E o n nd fuel s sd (norm n sd) scl gn = Fine s1 -> 0 <= sdelta s1.
  Proof.
    induction fuel as [|f IH]; intros s sd scl gn s1 Hd H; [discriminate|]. cbn [inner] in H.
    destruct (attempt E o n nd s sd (norm n sd) scl gn) as [[[s2 gn1] rho]| | |] eqn:A; cbn [obind] in H; try discriminate. destruct (attempt_delta _ _ _ _ _ _ _ Hd A) as (D & _).
    destruct (xlt rho 0 && rlt (o_dX o) (sdelta s2)); [eauto|injection H as <-; auto].
  Qed.
  Hypothesis DX : 0 < o_dX o.
  Lemma inner_ends : forall k s sd scl gn, 0 < sdelta s -> sdelta s <= o_dX o * 2 ^ k -> forall fuel, (k < fuel)%nat -> inner E o n nd fuel s sd (norm n sd) scl gn <> NoFuel.
  Proof.
    induction k as [|k IH]; intros s sd scl gn Hd Hk fuel Hf; (destruct fuel as [|f]; [lia|]); cbn [inner];
      pose proof (attempt_fuel s sd scl gn ltac:(lra)) as AF; destruct (attempt E o n nd s sd (norm n sd) scl gn) as [[[s2 gn1] rho]| | |] eqn:A; cbn [obind]; try discriminate; try contradiction;
      destruct (attempt_delta _ _ _ _ _ _ _ (Rlt_le _ _ Hd) A) as (D1 & D2); destruct (xlt rho 0) eqn:X; try discriminate; cbn [andb]; destruct (rlt (o_dX o) (sdelta s2)) eqn:Y; try discriminate;
      apply rlt_true in Y; specialize (D2 eq_refl ltac:(lra)).
    - cbn in Hk. lra.
    - apply IH; try lra; [cbn [pow] in Hk; lra|lia].
  Qed.
  Lemma pow2_big : forall x, exists k, x <= o_dX o * 2 ^ k.
  Proof.
    intros x. destruct (Pow_x_infinity 2 ltac:(rewrite Rabs_right; lra) (x / o_dX o)) as (N & H). exists N. specialize (H N (le_n N)).
    rewrite Rabs_right in H by (apply Rle_ge, pow_le; lra). apply Rmult_le_reg_r with (/ o_dX o); [apply Rinv_0_lt_compat; auto|]. apply Rge_le in H. 
    replace (o_dX o * 2 ^ N * / o_dX o) with (2 ^ N) by (field; lra). exact H.
  Qed.
  Lemma inner_total : forall s sd scl gn, 0 <= sdelta s -> exists F, forall fuel, (F < fuel)%nat -> inner E o n nd fuel s sd (norm n sd) scl gn <> NoFuel.
  Proof.
    intros s sd scl gn Hd. destruct (attempt E o n nd s sd (norm n sd) scl gn) as [[[s2 gn1] rho]| | |] eqn:A.
    - destruct (attempt_delta _ _ _ _ _ _ _ Hd A) as (D1 & _). destruct (pow2_big (sdelta s2)) as (k & Hk). exists (S k). intros fuel Hf. destruct fuel as [|f]; [lia|]. cbn [inner]. rewrite A. cbn [obind].
      destruct (xlt rho 0 && rlt (o_dX o) (sdelta s2)) eqn:C; [|discriminate]. apply andb_true_iff in C. destruct C as (_ & C). apply rlt_true in C. apply (inner_ends k); [lra|auto|lia].
    - exists O. intros [|f] Hf; [lia|]. cbn [inner]. rewrite A. discriminate.
    - exists O. intros [|f] Hf; [lia|]. cbn [inner]. rewrite A. discriminate.
    - exfalso. exact (attempt_fuel s sd scl gn Hd A).
  Qed.
  Lemma inner_more : forall f s sd scl gn, inner E o n nd f s sd (norm n sd) scl gn <> NoFuel -> forall f', (f <= f')%nat -> inner E o n nd f' s sd (norm n sd) scl gn = inner E o n nd f s sd (norm n sd) scl gn.
  Proof.
    induction f as [|f IH]; intros s sd scl gn H f' Hf; [contradiction H; reflexivity|]. destruct f' as [|f']; [lia|]. cbn [inner] in *.
    destruct (attempt E o n nd s sd (norm n sd) scl gn) as [[[s2 gn1] rho]| | |]; cbn [obind] in *; auto.
    destruct (xlt rho 0 && rlt (o_dX o) (sdelta s2)); auto. apply IH; auto. lia.
  Qed.
  Lemma pass_total : forall s, 0 <= sdelta s -> exists F r, r <> NoFuel /\ (forall s1, r = Fine s1 -> 0 <= sdelta s1 /\ sit s1 = (sit s + 1)%Z) /\ forall fuel, (F <= fuel)%nat -> pass E o n nd fuel s = r.
  Proof.
    intros s Hd. unfold pass. destruct (ssys s) as [H r]. destruct (Req_EM_T (vdot n (mvmul n H r) (mvmul n H r)) 0).
    { exists O, NotNum. split; [discriminate|]. split; [discriminate|auto]. }
    set (scl := vdot n r r / vdot n (mvmul n H r) (mvmul n H r)). set (sd := vscale scl r).
    destruct (inner_total s sd scl None Hd) as (F & HF). specialize (HF (S F) (Nat.lt_succ_diag_r F)).
    exists (S F). pose proof (inner_more (S F) s sd scl None HF) as M. destruct (inner E o n nd (S F) s sd (norm n sd) scl None) as [s2| | |] eqn:I1; try contradiction.
    - eexists. split; [|split; [|intros fuel Hf; rewrite (M fuel Hf); reflexivity]]; [discriminate|]. intros s1 Es. cbn [obind] in Es. injection Es as <-. cbn. split; [eapply inner_delta; eauto|].
      assert (forall f s sd scl gn s1, inner E o n nd f s sd (norm n sd) scl gn = Fine s1 -> sit s1 = sit s) as SI.
      { induction f as [|f IH]; intros a b c0 d0 e0 Hi; [discriminate|]. cbn [inner] in Hi. destruct (attempt E o n nd a b (norm n b) c0 d0) as [[[s3 gn1] rho]| | |] eqn:A; cbn [obind] in Hi; try discriminate.
        assert (sit s3 = sit a) as S3. { unfold attempt in A. destruct (pick E o n nd (sdelta a) (norm n b) c0 (sJ a) b d0 (sw a)) as [[[[[[d1 dx] L0] ty] gn2] w0]| | |]; cbn [obind] in A; try discriminate.
          destruct (y_apply E w0 dx) as [dX w1]. destruct (y_eval E w1) as [c w2].
          destruct (if xgt (ratio (sp a) c L0) 0 then let '(sys, w3) := y_build E w2 in (sys, c, w3) else let '(c2, w4) := y_eval E (y_revert E w2) in (ssys a, c2, w4)) as [[sys j] w3].
          destruct j; try discriminate. injection A as <- _ _. reflexivity. }
        destruct (xlt rho 0 && rlt (o_dX o) (sdelta s3)); [rewrite (IH _ _ _ _ _ Hi); auto|injection Hi as <-; auto]. }
      rewrite (SI _ _ _ _ _ _ I1). reflexivity.
    - exists NotNum. split; [discriminate|]. split; [discriminate|]. intros fuel Hf. rewrite (M fuel Hf). reflexivity.
    - exists Undef. split; [discriminate|]. split; [discriminate|]. intros fuel Hf. rewrite (M fuel Hf). reflexivity.
  Qed.
  Lemma passes_total : forall k s, 0 <= sdelta s -> (o_max o - sit s <= Z.of_nat k)%Z -> exists F, forall fuel, (F <= fuel)%nat -> passes E o n nd k fuel s <> NoFuel.
  Proof.
    induction k as [|k IH]; intros s Hd Hk.
    - exists O. intros fuel _. cbn. destruct (continue_ o s) eqn:C; [|discriminate]. exfalso. unfold continue_ in C. rewrite !andb_true_iff in C. destruct C as ((C & _) & _). apply Z.ltb_lt in C. lia.
    - destruct (pass_total s Hd) as (F & r & N & R & P). destruct r as [s1| | |]; try contradiction.
      + destruct (R s1 eq_refl) as (R1 & R2). destruct (IH s1 R1 ltac:(lia)) as (F2 & H2). exists (Nat.max F F2). intros fuel Hf. cbn [passes]. destruct (continue_ o s); [|discriminate].
        rewrite (P fuel ltac:(lia)). cbn [obind]. apply H2. lia.
      + exists F. intros fuel Hf. cbn [passes]. destruct (continue_ o s); [|discriminate]. rewrite (P fuel Hf). discriminate.
      + exists F. intros fuel Hf. cbn [passes]. destruct (continue_ o s); [|discriminate]. rewrite (P fuel Hf). discriminate.
  Qed.
  Lemma run_total : forall w, exists F, forall fuel, (F <= fuel)%nat -> optimizeDogLeg E o n nd fuel w <> NoFuel.
  Proof.
    intros w. unfold optimizeDogLeg. destruct (dstart E o w) as [s0| | |] eqn:S0; try (exists O; intros; cbn; discriminate).
    - assert (sdelta s0 = 0 /\ sit s0 = 0%Z) as (D & I0). { unfold dstart in S0. destruct (y_eval E w) as [[J| | |] w1]; try discriminate. destruct (y_build E w1). injection S0 as <-. auto. }
      destruct (passes_total (Z.to_nat (o_max o)) s0 ltac:(lra) ltac:(lia)) as (F & H). exists F. intros fuel Hf. cbn [obind]. specialize (H fuel Hf).
      destruct (passes E o n nd (Z.to_nat (o_max o)) fuel s0); cbn; try discriminate; contradiction.
    - unfold dstart in S0. destruct (y_eval E w) as [[J| | |] w1]; try discriminate. destruct (y_build E w1). discriminate.
  Qed.
End Loop.
