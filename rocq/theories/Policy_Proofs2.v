From Coq Require Import Reals Lra Lia List Bool.
From Verif Require Import Lib_Ring Lib_Real Policy_Model Policy_Spec Policy_Proofs.
Import ListNotations.
Open Scope R_scope.

Definition on_path (n : nat) (s : dl) (dx : vec R) : Prop :=
  match d_type s with
  | TSD => 0 < d_delta s <= d_sdn s /\ dx = vscale (d_delta s / d_sdn s) (d_sd s)
  | TGN => d_gn s = Some dx /\ norm n dx <= d_delta s
  | TDL => exists gn be, d_gn s = Some gn /\ dx = vadd (d_sd s) (vscale be (vsub gn (d_sd s))) /\ norm n dx = d_delta s /\ d_delta s < norm n gn /\
           (d_sdn s <= d_delta s -> 0 <= be <= 1)
  | TNone => False
  end.

Record dl_inv (n : nat) (s : dl) (dx : vec R) : Prop := mkDlInv {
  v_delta : 0 <= d_delta s;
  v_sd : d_sdn s = norm n (d_sd s);
  v_gn : exists gn, d_gn s = Some gn /\ d_gnn s = norm n gn;
  v_dx : dx = d_dx s;
  v_path : on_path n s dx }.

Lemma radius_nonneg : forall n s rho, 0 <= d_delta s -> (d_type s = TGN -> 0 <= d_gnn s) -> 0 <= dl_radius n s rho.
Proof.
  intros n s rho H G. unfold dl_radius. pose proof (norm_pos n (d_dx s)).
  destruct (xgt rho (3 / 4)); [destruct (rle (d_delta s) (3 * norm n (d_dx s))); lra|].
  destruct (xgt rho 0 && xlt rho (1 / 4)); [lra|]. destruct (xle rho 0); [|auto]. destruct (d_type s); try lra. specialize (G eq_refl). lra.
Qed.

Lemma half_sum_ext : forall n gn sd, veq n (vsub gn sd) (fun _ => 0) -> norm n (vadd sd (vscale (1 / 2) (vsub gn sd))) = norm n sd.
Proof.
  intros n gn sd H. apply norm_ext. intros i Hi. specialize (H i Hi). unfold vadd, vscale. 
  change (sd i + 1 / 2 * vsub gn sd i = sd i). rewrite H. change (sd i + 1 / 2 * 0 = sd i). lra.
Qed.
Lemma sub_zero_norm : forall n gn sd, veq n (vsub gn sd) (fun _ => 0) -> norm n gn = norm n sd.
Proof.
  intros n gn sd H. apply norm_ext. intros i Hi. specialize (H i Hi). unfold vsub in H. change (gn i - sd i = 0) in H. lra.
Qed.

Lemma dl_tail : forall n sd gn delta0 be x,
  let d := vsub gn sd in
  let delta := if Req_EM_T delta0 0 then norm n (vadd sd (vscale (1 / 2) d)) else delta0 in
  0 <= delta0 -> (delta0 <> 0 -> norm n sd < delta0) ->
  delta < norm n gn ->
  dl_beta (vdot n sd d) (vdot n d d) (delta * delta - norm n sd * norm n sd) = Some be ->
  x = vadd sd (vscale be d) ->
  norm n x = delta /\ (norm n sd <= delta -> 0 <= be <= 1).
Proof.
  intros n sd gn delta0 be x d delta H0 Hlt Hg Hb ->.
  assert (0 <= delta) as Hd. { subst delta. destruct (Req_EM_T delta0 0); auto. apply norm_pos. }
  assert (0 < vdot n d d) as HD.
  { destruct (Rtotal_order (vdot n d d) 0) as [L|[E|G]]; auto; [pose proof (dot_pos n d); lra|]. exfalso.
    apply dot_zero in E. pose proof (sub_zero_norm n gn sd E) as E1. pose proof (half_sum_ext n gn sd E) as E2. 
    subst delta d. destruct (Req_EM_T delta0 0) as [Z|Z]; [lra|specialize (Hlt Z); lra]. }
  pose proof (dl_beta_root _ _ _ _ HD Hb) as Q. pose proof (norm_sq n sd) as NS.
  split.
  - apply norm_eq; auto. rewrite dot_add_l, !dot_add_r, !dot_scale_l, !dot_scale_r. rewrite (dot_comm n d sd). lra.
  - intros Hs. apply (dl_beta_range (vdot n sd d) (vdot n d d) (delta * delta - norm n sd * norm n sd)); auto.
    + assert (norm n sd * norm n sd <= delta * delta); [|lra]. apply Rmult_le_compat; auto; apply norm_pos.
    + assert (delta * delta < norm n gn * norm n gn) as L. { apply Rmult_le_0_lt_compat; auto. }
      rewrite norm_sq in L. rewrite norm_sq.
      assert (vdot n gn gn = vdot n sd sd + 2 * vdot n sd d + vdot n d d) as E.
      { subst d. rewrite !dot_sub_l, !dot_sub_r. rewrite (dot_comm n gn sd). ring. }
      lra.
Qed.

Lemma dl_step_inv : forall n s dx c ok dx' s',
  (bfirst (d_base s) = true -> d_delta s = 0 /\ cpf c = false) ->
  (bfirst (d_base s) = false -> dl_inv n s dx) -> fst (csolve c) = true ->
  dl_solve n s dx c = DLok ok dx' s' ->
  ok = true /\ bfirst (d_base s') = false /\ dl_inv n s' dx' /\
  (bfirst (d_base s) = false -> d_delta s' <> 0 -> dl_radius n s (xdiv (get_dJ (base_enter (d_base s) c)) (d_L0 s)) <> 0 ->
     d_delta s' = dl_radius n s (xdiv (get_dJ (base_enter (d_base s) c)) (d_L0 s)) /\ (d_type s' <> TSD -> d_sdn s' < d_delta s')) /\
  (cpf c = false -> d_sys s' = cfresh c /\ d_sd s' = vscale (vdot n (rhs (cfresh c)) (rhs (cfresh c)) / rJtJr (cfresh c)) (rhs (cfresh c)) /\ rJtJr (cfresh c) <> 0) /\
  (cpf c = true -> d_gn s' = d_gn s /\ d_sd s' = d_sd s) /\
  (cpf c = false -> d_type s' <> TSD -> d_gn s' = Some (snd (csolve c))) /\
  (d_type s' = TSD -> d_gn s' = d_gn s).
Proof.
  intros n s dx c ok dx' s' Hfirst Hinv Hok S. unfold dl_solve in S. cbv zeta in S.
  set (b := base_enter (d_base s) c) in *.
  assert (bfirst b = bfirst (d_base s)) as Eb by reflexivity. rewrite Eb in S.
  set (delta := if bfirst (d_base s) then d_delta s else dl_radius n s (xdiv (get_dJ b) (d_L0 s))) in *.
  assert (0 <= delta) as Hd.
  { subst delta. destruct (bfirst (d_base s)) eqn:B; [destruct (Hfirst eq_refl) as [-> _]; lra|].
    destruct (Hinv eq_refl). apply radius_nonneg; auto. intros _. destruct v_gn0 as (gn & _ & ->). apply norm_pos. }
  assert (forall sy, (if Req_EM_T (rJtJr sy) 0 then true else false) = true <-> rJtJr sy = 0) as Z.
  { intros sy. destruct (Req_EM_T (rJtJr sy) 0); split; intros; auto; try discriminate; congruence. }
  set (sd := if cpf c then d_sd s else vscale (if cpf c then d_scale s else vdot n (rhs (if cpf c then d_sys s else cfresh c)) (rhs (if cpf c then d_sys s else cfresh c)) / rJtJr (if cpf c then d_sys s else cfresh c)) (rhs (if cpf c then d_sys s else cfresh c))) in *.
  set (sdn := if cpf c then d_sdn s else norm n sd) in *.
  assert (sdn = norm n sd) as Esd.
  { subst sdn sd. destruct (cpf c) eqn:PF; auto. destruct (bfirst (d_base s)) eqn:B; [destruct (Hfirst eq_refl); congruence|].
    destruct (Hinv eq_refl). auto. }
  destruct (negb (cpf c) && (if Req_EM_T (rJtJr (if cpf c then d_sys s else cfresh c)) 0 then true else false)) eqn:NZ; [discriminate|].
  assert (cpf c = false -> rJtJr (cfresh c) <> 0) as NZ'.
  { intros PF E. rewrite PF in NZ. cbn [negb andb] in NZ. destruct (Req_EM_T (rJtJr (cfresh c)) 0); congruence. }
  destruct (rle delta sdn && negb (if Req_EM_T delta 0 then true else false)) eqn:SDb.
  - apply andb_true_iff in SDb. destruct SDb as [L NE]. apply rle_true in L. destruct (Req_EM_T delta 0) as [|NE']; [discriminate|].
    assert (0 < delta) as Hp by lra.
    injection S as <- <- <-. cbn [d_base bfirst base_leave d_delta d_sdn d_sd d_gn d_gnn d_dx d_type d_sys].
    split; [auto|]. split; [auto|]. split.
    { constructor; cbn [d_delta d_sdn d_sd d_gn d_gnn d_dx d_type]; auto.
      - destruct (bfirst (d_base s)) eqn:B; [destruct (Hfirst eq_refl); subst delta; lra|]. destruct (Hinv eq_refl). auto.
      - unfold on_path; cbn [d_type d_delta d_sdn d_sd]. split; [lra|reflexivity]. }
    split; [intros B; subst delta; rewrite B; intros; split; [reflexivity|intros X; exfalso; apply X; reflexivity]|].
    split; [intros PF; subst sd; rewrite PF; auto|]. split; [intros PF; subst sd; rewrite PF; auto|]. split; [intros _ X; exfalso; apply X; reflexivity|auto].
  - assert (delta <> 0 -> sdn < delta) as Hlt.
    { intros NE. apply andb_false_iff in SDb. destruct SDb as [L|L]; [apply rle_false in L; auto|]. destruct (Req_EM_T delta 0); [congruence|discriminate]. }
    rewrite Hok in S. rewrite andb_false_r in S.
    set (gno := if cpf c then d_gn s else Some (snd (csolve c))) in *.
    destruct gno as [gn|] eqn:Eg; [|discriminate]. subst gno.
    set (gnn := if cpf c then d_gnn s else norm n gn) in *.
    assert (gnn = norm n gn) as Egn.
    { subst gnn. destruct (cpf c) eqn:PF; auto. destruct (bfirst (d_base s)) eqn:B; [destruct (Hfirst eq_refl); congruence|].
      destruct (Hinv eq_refl). destruct v_gn0 as (g & G1 & G2). rewrite G1 in Eg. injection Eg as <-. auto. }
    set (delta' := if Req_EM_T delta 0 then norm n (vadd sd (vscale (1 / 2) (vsub gn sd))) else delta) in *.
    assert (0 <= delta') as Hd'. { subst delta'. destruct (Req_EM_T delta 0); auto. apply norm_pos. }
    assert (forall ty, bfirst (d_base s) = false -> delta' <> 0 -> dl_radius n s (xdiv (get_dJ b) (d_L0 s)) <> 0 ->
             delta' = dl_radius n s (xdiv (get_dJ b) (d_L0 s)) /\ (ty <> TSD -> sdn < delta')) as Hr.
    { intros ty B N1 N2. subst delta' delta. rewrite B in *. destruct (Req_EM_T (dl_radius n s (xdiv (get_dJ b) (d_L0 s))) 0); [congruence|]. split; auto. }
    assert ((cpf c = false -> (if cpf c then d_sys s else cfresh c) = cfresh c /\ sd = vscale (vdot n (rhs (cfresh c)) (rhs (cfresh c)) / rJtJr (cfresh c)) (rhs (cfresh c)) /\ rJtJr (cfresh c) <> 0) /\
            (cpf c = true -> Some gn = d_gn s /\ sd = d_sd s) /\ (cpf c = false -> Some gn = Some (snd (csolve c)))) as (T1 & T2 & T3).
    { split; [intros PF; subst sd; rewrite PF; auto|]. split; [intros PF; subst sd; rewrite PF in *; auto|intros PF; rewrite PF in *; auto]. }
    destruct (rle gnn delta') eqn:GN.
    + injection S as <- <- <-. cbn [d_base bfirst base_leave d_delta d_sdn d_sd d_gn d_gnn d_dx d_type d_sys].
      apply rle_true in GN. split; [auto|]. split; [auto|]. split.
      { constructor; cbn [d_delta d_sdn d_sd d_gn d_gnn d_dx d_type]; auto; [eauto|]. cbn [on_path d_type]. split; auto. cbn [d_delta]. lra. }
      split; [apply Hr|]. repeat split; try tauto; try (intros; apply T1; auto); try (intros; apply T2; auto); try (intros; apply T3; auto). intros; discriminate.
    + apply rle_false in GN.
      destruct (dl_beta (vdot n sd (vsub gn sd)) (vdot n (vsub gn sd) (vsub gn sd)) (delta' * delta' - sdn * sdn)) as [be|] eqn:Be; [|discriminate].
      injection S as <- <- <-. cbn [d_base bfirst base_leave d_delta d_sdn d_sd d_gn d_gnn d_dx d_type d_sys].
      split; [auto|]. split; [auto|].
      assert (norm n (vadd sd (vscale be (vsub gn sd))) = delta' /\ (norm n sd <= delta' -> 0 <= be <= 1)) as (N1 & N2).
      { apply (dl_tail n sd gn delta be); auto.
        - intros NE. rewrite <- Esd. auto.
        - fold delta'. lra.
        - fold delta'. rewrite Esd in Be. exact Be. }
      split.
      { constructor; cbn [d_delta d_sdn d_sd d_gn d_gnn d_dx d_type]; auto; [eauto|]. cbn [on_path d_type d_gn d_sd d_delta d_sdn].
        exists gn, be. repeat split; auto; try lra; intros; apply N2; lra. }
      split; [apply Hr|]. repeat split; try tauto; try (intros; apply T1; auto); try (intros; apply T2; auto); try (intros; apply T3; auto). intros; discriminate.
Qed.

Lemma dl_reach_inv : forall n Good s dx, dl_reach n Good s dx ->
  (bfirst (d_base s) = true -> d_delta s = 0) /\ (bfirst (d_base s) = false -> dl_inv n s dx).
Proof.
  intros n Good s dx H. induction H as [s J dx|s dx c ok dx' s' H IH Hf Hok Hg S].
  - split; [reflexivity|discriminate].
  - destruct IH as [I1 I2]. destruct (dl_step_inv n s dx c ok dx' s') as (_ & B & I & _); auto.
    rewrite B. split; [discriminate|auto].
Qed.

Lemma on_path_inside : forall n s dx, dl_inv n s dx -> norm n dx <= d_delta s.
Proof.
  intros n s dx [H1 H2 H3 H4 H5]. unfold on_path in H5. destruct (d_type s).
  - tauto.
  - destruct H5 as [[P L] ->]. rewrite norm_scale.
    + rewrite <- H2. unfold Rdiv. rewrite Rmult_assoc, Rinv_l by lra. lra.
    + apply Rmult_le_pos; [lra|]. apply Rlt_le, Rinv_0_lt_compat. lra.
  - tauto.
  - destruct H5 as (gn & be & _ & _ & -> & _). lra.
Qed.

(** *** positive definite systems *)
Lemma spd_cauchy : forall n H g x, spd n H -> veq n (mvmul n H x) g -> vdot n g (mvmul n H g) <> 0 ->
  let a := vdot n g g / vdot n g (mvmul n H g) in
  a * vdot n g g <= vdot n x g.
Proof.
  intros n H g x (Sy & Po & Ze) E NZ a.
  pose proof (Po (vsub x (vscale a g))) as Q.
  assert (forall u v, vdot n u (mvmul n H v) = vdot n v (mvmul n H u)) as Sm.
  { intros u v. rewrite vdot_mvmul. rewrite (vdot_comm n v). apply vdot_ext; [|intros i Hi; reflexivity].
    apply mvmul_ext; [|intros i Hi; reflexivity]. intros i j Hi Hj. unfold mtr. apply Sy; auto. }
  assert (vdot n (vsub x (vscale a g)) (mvmul n H (vsub x (vscale a g))) = vdot n x g - a * vdot n g g) as X.
  { rewrite (vdot_ext n _ (vsub x (vscale a g)) _ (vsub (mvmul n H x) (vscale a (mvmul n H g)))).
    - rewrite dot_sub_l, !dot_sub_r, !dot_scale_l, !dot_scale_r.
      rewrite (Sm x g). rewrite (vdot_ext n x x _ g) by (auto; intros i Hi; reflexivity).
      rewrite (vdot_ext n g g (mvmul n H x) g) by (auto; intros i Hi; reflexivity).
      assert (a * vdot n g (mvmul n H g) = vdot n g g) as A. { subst a. field. exact NZ. }
      rewrite A. ring.
    - intros i Hi; reflexivity.
    - intros i Hi. rewrite mvmul_sub. unfold vsub, vscale at 2. f_equal. apply mvmul_scale. }
  rewrite X in Q. lra.
Qed.

Lemma gn_system_facts : forall n c, gn_system n c -> let g := rhs (cfresh c) in let sd := vscale (vdot n g g / rJtJr (cfresh c)) g in
  let gn := snd (csolve c) in
  0 < norm n sd /\ 0 < norm n gn /\ 0 <= vdot n sd (vsub gn sd).
Proof.
  intros n c (H & S & R & N & E) g sd gn.
  change (rJtJr (cfresh c) = vdot n g (mvmul n H g)) in R.
  assert (vdot n g (mvmul n H g) <> 0) as NZ. { destruct S as (_ & _ & Ze). intros Q. apply N. apply Ze. auto. }
  assert (0 < vdot n g (mvmul n H g)) as P. { destruct S as (_ & Po & _). specialize (Po g). lra. }
  assert (0 < vdot n g g) as G. { destruct (Rtotal_order (vdot n g g) 0) as [L|[Z|L]]; auto; [pose proof (dot_pos n g); lra|]. apply dot_zero in Z. contradiction. }
  pose proof (spd_cauchy n H g gn S E NZ) as C. cbv zeta in C. rewrite <- R in C. rewrite <- R in P.
  set (a := vdot n g g / rJtJr (cfresh c)) in *. assert (0 < a) as A by (apply Rdiv_lt_0_compat; auto).
  assert (0 < vdot n sd sd) as SD. { subst sd. rewrite dot_scale_l, dot_scale_r. apply Rmult_lt_0_compat; auto. apply Rmult_lt_0_compat; auto. }
  split; [apply sqrt_lt_R0; auto|]. split.
  - apply sqrt_lt_R0. destruct (Rtotal_order (vdot n gn gn) 0) as [L|[Z|L]]; auto; [pose proof (dot_pos n gn); lra|]. exfalso. apply dot_zero in Z.
    assert (vdot n gn g = 0) as Q. { rewrite (vdot_ext n gn (fun _ => 0) g g) by (auto; intros i Hi; reflexivity). unfold vdot. apply (@ksum_zero _ RRing). intros. change (0 * g i = 0). ring. }
    rewrite Q in C. assert (0 < a * vdot n g g) by (apply Rmult_lt_0_compat; auto). lra.
  - subst sd. rewrite dot_sub_r, dot_scale_r, !dot_scale_l. rewrite (dot_comm n g gn).
    assert (0 <= a * (vdot n gn g - a * vdot n g g)) by (apply Rmult_le_pos; lra). lra.
Qed.

Record dl_pos (n : nat) (s : dl) : Prop := mkDlPos {
  q_delta : 0 < d_delta s;
  q_gn : exists gn, d_gn s = Some gn /\ 0 < norm n gn;
  q_sd : d_type s <> TSD -> d_sdn s <= d_delta s }.

Lemma dl_step_pos : forall n s dx c ok dx' s',
  (bfirst (d_base s) = true -> d_delta s = 0 /\ cpf c = false) ->
  (bfirst (d_base s) = false -> dl_inv n s dx /\ dl_pos n s) -> fst (csolve c) = true -> gn_system n c ->
  dl_solve n s dx c = DLok ok dx' s' -> dl_pos n s'.
Proof.
  intros n s dx c ok dx' s' Hf Hi Hok Hg S.
  destruct (dl_step_inv n s dx c ok dx' s') as (Ok' & B & I & Rd & Fr & Pf & Gn & Sd); auto; [intros Q; apply Hi; auto|].
  pose proof (gn_system_facts n c Hg) as (P1 & P2 & P3). cbv zeta in P1, P2, P3.
  destruct (bfirst (d_base s)) eqn:Fi.
  - (* first call *)
    destruct (Hf eq_refl) as [D0 PF].
    unfold dl_solve in S. cbv zeta in S. cbn [bfirst base_enter] in S. rewrite Fi, D0, PF in S. cbn [negb andb] in S.
    destruct (Req_EM_T (rJtJr (cfresh c)) 0); [discriminate|].
    destruct (Req_EM_T 0 0) as [_|]; [|congruence]. cbn [negb] in S. rewrite andb_false_r in S. rewrite Hok in S. cbn [negb] in S.
    set (sd := vscale (vdot n (rhs (cfresh c)) (rhs (cfresh c)) / rJtJr (cfresh c)) (rhs (cfresh c))) in *.
    set (gn := snd (csolve c)) in *.
    set (delta := norm n (vadd sd (vscale (1 / 2) (vsub gn sd)))) in *.
    assert (norm n sd <= delta) as L.
    { apply sq_le; [apply norm_pos|apply norm_pos|]. subst delta. rewrite !norm_sq. rewrite dot_add_l, !dot_add_r, !dot_scale_l, !dot_scale_r.
      rewrite (dot_comm n (vsub gn sd) sd). pose proof (dot_pos n (vsub gn sd)). lra. }
    destruct (rle (norm n gn) delta).
    + injection S as <- <- <-. constructor; cbn [d_delta d_gn d_sdn d_type]; eauto; lra.
    + destruct (dl_beta _ _ _); [|discriminate]. injection S as <- <- <-. constructor; cbn [d_delta d_gn d_sdn d_type]; eauto; lra.
  - destruct (Hi eq_refl) as [I0 [D0 (gn0 & G0 & G0') S0]].
    set (rd := dl_radius n s (xdiv (get_dJ (base_enter (d_base s) c)) (d_L0 s))) in *.
    assert (0 < rd) as Rp.
    { subst rd. unfold dl_radius. pose proof (norm_pos n (d_dx s)).
      destruct (xgt _ (3 / 4)); [destruct (rle (d_delta s) (3 * norm n (d_dx s))) eqn:E; [apply rle_true in E; lra|lra]|].
      destruct (xgt _ 0 && xlt _ (1 / 4)); [lra|]. destruct (xle _ 0); [|auto]. destruct (d_type s); try lra.
      destruct I0. destruct v_gn0 as (g & G1 & G2). rewrite G1 in G0. injection G0 as <-. lra. }
    assert (d_delta s' = rd /\ (d_type s' <> TSD -> d_sdn s' < d_delta s')) as [E1 E2].
    { assert (d_delta s' <> 0) as NZ.
      { unfold dl_solve in S. cbv zeta in S. cbn [bfirst base_enter] in S. rewrite Fi in S. fold rd in S.
        match type of S with (if ?x then _ else _) = _ => destruct x; [discriminate|] end.
        destruct (Req_EM_T rd 0); [lra|].
        match type of S with (if ?x then _ else _) = _ => destruct x; [injection S as <- <- <-; cbn [d_delta]; lra|] end.
        match type of S with (if ?x then _ else _) = _ => destruct x; [injection S as <- <- <-; cbn [d_delta]; lra|] end.
        match type of S with (match ?x with Some _ => _ | None => _ end) = _ => destruct x; [|discriminate] end.
        match type of S with (if ?x then _ else _) = _ => destruct x; [injection S as <- <- <-; cbn [d_delta]; lra|] end.
        destruct (dl_beta _ _ _); [|discriminate]. injection S as <- <- <-. cbn [d_delta]. lra. }
      destruct (Rd eq_refl NZ) as [A1 A2]; [lra|]. auto. }
    constructor.
    + lra.
    + destruct (cpf c) eqn:PF.
      * destruct (Pf eq_refl) as [-> _]. eauto.
      * destruct (d_type s') eqn:T; try (rewrite Gn by (auto; discriminate); eexists; split; [reflexivity|auto]). rewrite Sd by auto. eauto.
    + intros T. specialize (E2 T). lra.
Qed.

Lemma dl_reach_pos : forall n s dx, dl_reach n (gn_system n) s dx -> bfirst (d_base s) = false -> dl_pos n s.
Proof.
  intros n s dx H. induction H as [s J dx|s dx c ok dx' s' H IH Hf Hok Hg S]; [discriminate|]. intros _.
  destruct (dl_reach_inv n _ _ _ H) as [I1 I2].
  eapply dl_step_pos; eauto.
Qed.

(** the Gauss-Newton step is taken whenever it fits *)
Lemma dl_gn_fits : forall n s dx c ok dx' s', dl_reach n (gn_system n) s dx -> (bfirst (d_base s) = true -> cpf c = false) ->
  fst (csolve c) = true -> gn_system n c -> dl_solve n s dx c = DLok ok dx' s' -> cpf c = false ->
  norm n (snd (csolve c)) <= d_delta s' -> veq n dx' (snd (csolve c)).
Proof.
  intros n s dx c ok dx' s' H Hf Hok Hg S PF Fit.
  destruct (dl_reach_inv n _ _ _ H) as [I1 I2].
  destruct (dl_step_inv n s dx c ok dx' s') as (Ok' & B & I & Rd & Fr & Pf & Gn & Sd); auto.
  destruct (gn_system_facts n c Hg) as (P1 & P2 & P3). destruct (Fr PF) as (F1 & F2 & F3). rewrite <- F2 in *.
  set (gn := snd (csolve c)) in *. destruct I. unfold on_path in v_path0.
  destruct (d_type s') eqn:T.
  - contradiction.
  - destruct v_path0 as [[Q1 Q2] ->]. rewrite v_sd0 in *.
    assert (vdot n gn gn = vdot n (d_sd s') (d_sd s') + 2 * vdot n (d_sd s') (vsub gn (d_sd s')) + vdot n (vsub gn (d_sd s')) (vsub gn (d_sd s'))) as E.
    { rewrite !dot_sub_l, !dot_sub_r. rewrite (dot_comm n gn (d_sd s')). ring. }
    pose proof (dot_pos n (vsub gn (d_sd s'))) as D0.
    assert (norm n gn * norm n gn <= norm n (d_sd s') * norm n (d_sd s')) as L by (apply Rmult_le_compat; lra).
    rewrite !norm_sq in L. assert (vdot n (vsub gn (d_sd s')) (vsub gn (d_sd s')) = 0) as Z by lra.
    apply dot_zero in Z. pose proof (sub_zero_norm n gn (d_sd s') Z) as NE.
    assert (d_delta s' = norm n (d_sd s')) as DE by lra. rewrite DE. intros i Hi. specialize (Z i Hi).
    unfold vsub in Z. change (gn i - d_sd s' i = 0) in Z. unfold vscale. change (norm n (d_sd s') / norm n (d_sd s') * d_sd s' i = gn i).
    unfold Rdiv. rewrite Rinv_r by lra. lra.
  - destruct v_path0 as [Q1 _]. rewrite Gn in Q1 by (auto; discriminate). injection Q1 as <-. intros i Hi; reflexivity.
  - destruct v_path0 as (g & be & Q1 & _ & _ & Q2 & _). rewrite Gn in Q1 by (auto; discriminate). injection Q1 as <-. lra.
Qed.

(** the whole statement for well-posed systems *)
Theorem dl_main : forall n s dx, dl_reach n (gn_system n) s dx -> bfirst (d_base s) = false ->
  0 < d_delta s /\ norm n dx <= d_delta s /\
  ((exists t, 0 <= t <= 1 /\ dx = vscale t (d_sd s)) \/
   (exists gn be, d_gn s = Some gn /\ 0 <= be <= 1 /\ veq n dx (vadd (d_sd s) (vscale be (vsub gn (d_sd s)))))).
Proof.
  intros n s dx H B. destruct (dl_reach_inv n _ _ _ H) as [_ I]. specialize (I B). pose proof (dl_reach_pos n s dx H B) as [Q1 Q2 Q3].
  split; auto. split; [apply on_path_inside; auto|]. destruct I. unfold on_path in v_path0. destruct (d_type s) eqn:T.
  - contradiction.
  - left. destruct v_path0 as [[A1 A2] A3]. exists (d_delta s / d_sdn s). split; auto. split.
    + apply Rmult_le_pos; [lra|]. apply Rlt_le, Rinv_0_lt_compat. lra.
    + apply Rmult_le_reg_r with (d_sdn s); [lra|]. unfold Rdiv. rewrite Rmult_assoc, Rinv_l by lra. lra.
  - right. destruct v_path0 as [A1 A2]. exists dx, 1. repeat split; auto; try lra. intros i Hi. unfold vadd, vscale, vsub.
    change (dx i = d_sd s i + 1 * (dx i - d_sd s i)). ring.
  - right. destruct v_path0 as (gn & be & A1 & A2 & A3 & A4 & A5). exists gn, be. split; auto. split; [apply A5; apply Q3; discriminate|]. subst dx. intros i Hi. f_equal. rewrite <- A2. reflexivity.
Qed.
