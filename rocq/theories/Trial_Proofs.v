(** * The trial points of the line searches *)
From Coq Require Import ZArith Reals Lra Lia Bool Psatz.
From Verif Require Import Lib_Num LineSearch_Model Trial_Spec.
Open Scope R_scope.

Lemma litR : forall z, lit z = IZR z :> R.
Proof. intros. unfold lit. cbn. field. Qed.
Ltac prim := unfold sqr in *; cbn [nadd nsub nmul ndiv nopp nabs nsqrt nlt nle neq nnan nlit R_num] in *; rewrite ?litR in *.

(** ** quadMin, cubicMin *)
Theorem quadMin_right : forall k2 k1 k0 a b, a <> b -> 0 < k2 ->
  let q x := cubic 0 k2 k1 k0 x in
  forall x, q (quadMin a (q a) (cubic' 0 k2 k1 a) b (q b)) <= q x.
Proof.
  intros k2 k1 k0 a b H K q x. assert (quadMin a (q a) (cubic' 0 k2 k1 a) b (q b) = - k1 / (2 * k2)) as ->.
  { unfold quadMin. prim. assert ((q b - q a - cubic' 0 k2 k1 a * (b - a)) / ((b - a) * (b - a)) = k2) as ->.
    { unfold q, cubic, cubic'. field. lra. } unfold cubic'. field. lra. }
  unfold q, cubic. assert (0 <= k2 * ((x + k1 / (2 * k2)) * (x + k1 / (2 * k2)))) as Q by (apply Rmult_le_pos; [lra|apply Rle_0_sqr]).
  replace (k2 * ((x + k1 / (2 * k2)) * (x + k1 / (2 * k2)))) with (k2 * x ^ 2 + k1 * x + k1 * k1 / (4 * k2)) in Q by (field; lra).
  replace (0 * (- k1 / (2 * k2)) ^ 3 + k2 * (- k1 / (2 * k2)) ^ 2 + k1 * (- k1 / (2 * k2)) + k0) with (k0 - k1 * k1 / (4 * k2)) by (field; lra). lra.
Qed.
Theorem cubicMin_right : forall k3 k2 k1 k0 a b c, a <> b -> a <> c -> b <> c -> k3 <> 0 -> 0 <= k2 * k2 - 3 * k3 * k1 ->
  let q x := cubic k3 k2 k1 k0 x in let t := cubicMin a (q a) (cubic' k3 k2 k1 a) b (q b) c (q c) in
  cubic' k3 k2 k1 t = 0 /\ 0 <= cubic'' k3 k2 t.
Proof.
  intros k3 k2 k1 k0 a b c H1 H2 H3 K D q t. set (g := sqrt (k2 * k2 - 3 * k3 * k1)). assert (g * g = k2 * k2 - 3 * k3 * k1) as G by (unfold g; apply sqrt_sqrt; auto). assert (0 <= g) as G0 by apply sqrt_pos.
  assert (t = (- k2 + g) / (3 * k3)) as ->.
  { unfold t, cubicMin. prim.
    set (den := (b - a) * (c - a) * ((b - a) * (c - a)) * (b - a - (c - a))). assert (den <> 0) as Dn.
    { unfold den. replace (b - a - (c - a)) with (b - c) by ring. repeat apply Rmult_integral_contrapositive_currified; lra. }
    match goal with |- context [sqrt (?x * ?x - 3 * ?y * _)] => assert (y = k3) as Ey; [|assert (x = k2 + 3 * k3 * a) as Ex; [|rewrite Ex, Ey]] end.
    - apply Rmult_eq_reg_r with den; auto. unfold Rdiv. rewrite Rmult_assoc, Rinv_l by auto. unfold den, q, cubic, cubic'. ring.
    - apply Rmult_eq_reg_r with den; auto. unfold Rdiv. rewrite Rmult_assoc, Rinv_l by auto. unfold den, q, cubic, cubic'. ring.
    - replace ((k2 + 3 * k3 * a) * (k2 + 3 * k3 * a) - 3 * k3 * cubic' k3 k2 k1 a) with (k2 * k2 - 3 * k3 * k1) by (unfold cubic'; ring). fold g. field. auto. }
  unfold cubic', cubic''. split.
  - replace (3 * k3 * ((- k2 + g) / (3 * k3)) ^ 2 + 2 * k2 * ((- k2 + g) / (3 * k3)) + k1) with ((g * g - k2 * k2 + 3 * k3 * k1) / (3 * k3)) by (field; auto). rewrite G. field. auto.
  - replace (6 * k3 * ((- k2 + g) / (3 * k3)) + 2 * k2) with (2 * g) by (field; auto). lra.
Qed.

(** ** the fraction of dcstep *)
Definition gam (h th d0 d1 : R) : R := if Rltb h 0 then - sqrt (th * th - d0 * d1) else sqrt (th * th - d0 * d1).
Lemma frac_pos : forall a0 a1 T f, a0 < 0 -> (T < a0 + a1 \/ 0 < a1) -> 0 <= f -> f * f = Rmax 0 (T * T - a0 * a1) -> let r := (f - a0 + T) / (f - a0 + f + a1) in 0 < r < 1.
Proof.
  intros a0 a1 T f A H F E r. assert (T * T - a0 * a1 <= f * f) as Ef by (rewrite E; apply Rmax_r).
  assert (0 < f - a0 + T /\ 0 < f + a1 - T) as [N1 N2].
  { destruct (Rlt_le_dec 0 a1) as [P|P].
    - assert (T * T < f * f) as Q by nra. assert (T < f) by nra. assert (- T < f) by nra. lra.
    - destruct H as [H|H]; [|lra]. assert (f * f - (- T + a0) * (- T + a0) > 0) as Q by nra. assert (- T + a0 < f) by nra. split; lra. }
  unfold r. split; [apply Rdiv_lt_0_compat; lra|]. apply Rmult_lt_reg_r with (f - a0 + f + a1); [lra|]. unfold Rdiv. rewrite Rmult_assoc, Rinv_l by lra. lra.
Qed.
Lemma smax_ge : forall a b : R, a <= smax a b /\ b <= smax a b.
Proof. intros a b. unfold smax. cbn [nlt R_num]. destruct (Rltb a b) eqn:E; [apply Rltb_true in E|apply Rltb_false in E]; lra. Qed.
Lemma gamma_eq : forall th d0 d1, d0 <> 0 \/ d1 <> 0 -> cubic_gamma false th d0 d1 = sqrt (th * th - d0 * d1).
Proof.
  intros th d0 d1 D. unfold cubic_gamma. cbv zeta. set (s := cubic_s th d0 d1). assert (0 < s) as S0.
  { assert (0 < Rabs d0 \/ 0 < Rabs d1) as Q by (destruct D; [left|right]; apply Rabs_pos_lt; auto). pose proof (Rabs_pos d0). pose proof (Rabs_pos d1). unfold s, cubic_s. cbn [nabs R_num]. pose proof (smax_ge (Rabs th) (smax (Rabs d0) (Rabs d1))). pose proof (smax_ge (Rabs d0) (Rabs d1)). lra. }
  clearbody s. prim. rewrite <- (sqrt_Rsqr s) at 1 by lra. rewrite <- sqrt_mult_alt by apply Rle_0_sqr. f_equal. unfold Rsqr. field. lra.
Qed.
(* with f0 at one end, f1 at the other, h apart *)
Lemma frac : forall f0 f1 d0 d1 h, d0 * h < 0 -> (f0 < f1 \/ 0 < d1 * h) ->
  let th := 3 * (f0 - f1) / h + d0 + d1 in let g := gam h th d0 d1 in 0 < (g - d0 + th) / (g - d0 + g + d1) < 1.
Proof.
  intros f0 f1 d0 d1 h A H th g. assert (h <> 0) as Hn by nra. unfold g, gam. set (w := sqrt (th * th - d0 * d1)). assert (0 <= w) as W by apply sqrt_pos.
  assert (w * w = Rmax 0 (th * th - d0 * d1)) as Ew.
  { unfold w. destruct (Rle_lt_dec 0 (th * th - d0 * d1)) as [Q|Q]; [rewrite sqrt_sqrt, Rmax_right by auto; reflexivity|]. rewrite sqrt_neg_0 by lra. rewrite Rmax_left by lra. ring. }
  destruct (Rltb h 0) eqn:E; [apply Rltb_true in E|apply Rltb_false in E].
  - assert (0 < d0) by nra. assert (0 < (f0 - f1) / h \/ d1 < 0) as HH.
    { destruct H as [H|H]; [left|right; nra]. replace ((f0 - f1) / h) with ((f1 - f0) / (- h)) by (field; auto). apply Rdiv_lt_0_compat; lra. }
    assert (3 * (f0 - f1) / h = 3 * ((f0 - f1) / h)) as Q by (field; auto).
    pose proof (frac_pos (- d0) (- d1) (- th) w ltac:(lra) ltac:(unfold th; destruct HH; [left|right]; lra) W ltac:(rewrite Ew; f_equal; ring)) as P. cbv zeta in P.
    assert (w - - d0 + w + - d1 <> 0) as Nz. { intros Z. rewrite Z in P. unfold Rdiv in P. rewrite Rinv_0 in P. lra. }
    replace ((- w - d0 + th) / (- w - d0 + - w + d1)) with ((w - - d0 + - th) / (w - - d0 + w + - d1)); [exact P|]. field. split; [|exact Nz]. intros Z. apply Nz. lra.
  - assert (0 < h) by (destruct E; [auto|congruence]). assert (d0 < 0) by nra. assert ((f0 - f1) / h < 0 \/ 0 < d1) as HH.
    { destruct H as [H|H]; [left|right; nra]. assert (0 < (f1 - f0) / h) as Q by (apply Rdiv_lt_0_compat; lra). replace ((f0 - f1) / h) with (- ((f1 - f0) / h)) by (field; auto). lra. }
    assert (3 * (f0 - f1) / h = 3 * ((f0 - f1) / h)) as Q by (field; auto).
    apply (frac_pos d0 d1 th w); auto. unfold th; destruct HH; [left|right]; lra.
Qed.

Lemma shift_lt : forall a b, Rltb a b = Rltb (a - b) 0.
Proof. intros a b. destruct (Rltb (a - b) 0) eqn:E; [apply Rltb_true in E; apply Rltb_true; lra|apply Rltb_false in E; apply Rltb_false; lra]. Qed.
Lemma sgn_neg : forall x y, Rltb (y * sgn x) 0 = Rltb (x * y) 0.
Proof.
  intros x y. unfold sgn. prim. destruct (Rltb 0 x) eqn:E1; [apply Rltb_true in E1|apply Rltb_false in E1]; (destruct (Rltb x 0) eqn:E2; [apply Rltb_true in E2|apply Rltb_false in E2]); try lra.
  - destruct (Rltb (x * y) 0) eqn:E; [apply Rltb_true in E; apply Rltb_true; nra|apply Rltb_false in E; apply Rltb_false; nra].
  - destruct (Rltb (x * y) 0) eqn:E; [apply Rltb_true in E; apply Rltb_true; nra|apply Rltb_false in E; apply Rltb_false; nra].
  - assert (x = 0) as -> by lra. f_equal; ring.
Qed.
Lemma at_fraction : forall a h rho, h <> 0 -> 0 < rho < 1 -> between (a + rho * h) a (a + h).
Proof. intros a h rho H R0. destruct (Rdichotomy _ _ H); [right|left]; nra. Qed.

Section Step.
  Variables (v : dc R) (fp dp stpmin stpmax : R).
  Hypothesis (Br : bracket v) (Ro : room v stpmin stpmax) (Dp : dp <> 0).
  Notation h := (stp v - stx v).
  Notation new := (dcstep_new v fp dp stpmin stpmax).
  Lemma dx_nz : dx v <> 0. Proof. destruct Br as [B _]. nra. Qed.
  Lemma h_nz : h <> 0. Proof. destruct Br as [B _]. nra. Qed.

  (* the first case: from stx towards stp *)
  Lemma new1 : fx v < fp -> exists rho, 0 < rho < 1 /\ new = (stx v + rho * h, true).
  Proof.
    intros F. pose proof dx_nz as Dn. pose proof h_nz as Hn. pose proof (proj1 Br) as B. unfold dcstep_new. cbv zeta. prim. rewrite (proj2 (Rltb_true _ _) F).
    rewrite gamma_eq by auto. unfold cubic_theta. prim. rewrite (shift_lt (stp v)).
    pose proof (frac (fx v) fp (dx v) dp h B (or_introl F)) as P. cbv zeta in P. unfold gam in P.
    set (r := _ / _) in P. fold r. clearbody r.
    assert (exists q, 0 < q < 1 / 2 /\ dx v / ((fx v - fp) / h + dx v) / 2 = q) as (q & Q & Eq).
    { eexists. split; [|reflexivity].
      assert (0 < dx v / ((fx v - fp) / h + dx v) < 1) as W; [|lra].
      destruct (Rdichotomy _ _ Hn) as [G|G].
      - assert (0 < dx v) by nra. assert (0 < (fx v - fp) / h) as Q. { replace ((fx v - fp) / h) with ((fp - fx v) / (- h)) by (field; lra). apply Rdiv_lt_0_compat; lra. }
        split; [apply Rdiv_lt_0_compat; lra|]. apply Rmult_lt_reg_r with ((fx v - fp) / h + dx v); [lra|]. unfold Rdiv at 1. rewrite Rmult_assoc, Rinv_l by lra. lra.
      - assert (dx v < 0) by nra. assert (0 < (fp - fx v) / h) as Q by (apply Rdiv_lt_0_compat; lra). replace ((fx v - fp) / h) with (- ((fp - fx v) / h)) by (field; lra). set (u := (fp - fx v) / h) in *.
        replace (dx v / (- u + dx v)) with (- dx v / (u - dx v)) by (field; lra).
        split; [apply Rdiv_lt_0_compat; lra|]. apply Rmult_lt_reg_r with (u - dx v); [lra|]. unfold Rdiv. rewrite Rmult_assoc, Rinv_l by lra. lra. }
    rewrite Eq. destruct (Rltb _ _).
    - exists r. split; [exact P|reflexivity].
    - exists ((r + q) / 2). split; [lra|]. f_equal. field.
  Qed.
  (* the second case: from stp back towards stx *)
  Lemma new2 : fp <= fx v -> dx v * dp < 0 -> exists rho, 0 < rho < 1 /\ new = (stp v + rho * (stx v - stp v), true).
  Proof.
    intros F S. pose proof dx_nz as Dn. pose proof h_nz as Hn. pose proof (proj1 Br) as B. unfold dcstep_new. cbv zeta. prim. rewrite (proj2 (Rltb_false _ _) F). rewrite sgn_neg, (proj2 (Rltb_true _ _) S).
    rewrite gamma_eq by auto. unfold cubic_theta. prim. rewrite (shift_lt (stx v)).
    assert (dp * (stx v - stp v) < 0) as B2 by nra. assert (0 < dx v * (stx v - stp v)) as B3 by nra.
    pose proof (frac fp (fx v) dp (dx v) (stx v - stp v) B2 (or_intror B3)) as P. cbv zeta in P. unfold gam in P.
    replace (3 * (fp - fx v) / (stx v - stp v) + dp + dx v) with (3 * (fx v - fp) / h + dx v + dp) in P by (field; lra). rewrite (Rmult_comm dp (dx v)) in P. set (r := _ / _) in P. fold r. clearbody r.
    assert (0 < dp / (dp - dx v) < 1) as Q.
    { destruct (Rdichotomy _ _ Dp).
      - assert (0 < dx v) by nra. replace (dp / (dp - dx v)) with (- dp / (dx v - dp)) by (field; lra). split; [apply Rdiv_lt_0_compat; lra|]. apply Rmult_lt_reg_r with (dx v - dp); [lra|]. unfold Rdiv. rewrite Rmult_assoc, Rinv_l by lra. lra.
      - assert (dx v < 0) by nra. split; [apply Rdiv_lt_0_compat; lra|]. apply Rmult_lt_reg_r with (dp - dx v); [lra|]. unfold Rdiv. rewrite Rmult_assoc, Rinv_l by lra. lra. }
    destruct (Rltb _ _); [exists r|exists (dp / (dp - dx v))]; split; auto.
  Qed.
  (* the other cases: beyond stp *)
  Lemma new34 : fp <= fx v -> 0 < dx v * dp -> exists s, new = (s, brackt v) /\ (s - stp v) * h > 0 /\ (brackt v = true -> between s (stp v) (sty v)).
  Proof.
    intros F S. pose proof dx_nz as Dn. pose proof h_nz as Hn. pose proof (proj1 Br) as B. unfold dcstep_new. cbv zeta. prim. rewrite (proj2 (Rltb_false _ _) F). rewrite sgn_neg, (proj2 (Rltb_false _ _) (Rlt_le _ _ S)).
    assert (dp * h < 0) as B2. { destruct (Rdichotomy _ _ Hn); [assert (0 < dx v) by nra; assert (0 < dp) by nra|assert (dx v < 0) by nra; assert (dp < 0) by nra]; nra. }
    destruct (Rltb (Rabs dp) (Rabs (dx v))) eqn:Ea.
    - apply Rltb_true in Ea.
      assert (dp / (dp - dx v) < 0) as Q.
      { destruct (Rdichotomy _ _ Dp) as [G|G].
        - assert (dx v < 0) by nra. rewrite !Rabs_left in Ea by lra. replace (dp / (dp - dx v)) with (- (- dp / (dp - dx v))) by (field; lra). assert (0 < - dp / (dp - dx v)) by (apply Rdiv_lt_0_compat; lra). lra.
        - assert (0 < dx v) by nra. rewrite !Rabs_pos_eq in Ea by lra. replace (dp / (dp - dx v)) with (- (dp / (dx v - dp))) by (field; lra). assert (0 < dp / (dx v - dp)) by (apply Rdiv_lt_0_compat; lra). lra. }
      set (stpq := stp v + dp / (dp - dx v) * (stx v - stp v)). assert ((stpq - stp v) * h > 0) as Hq. { unfold stpq. assert (0 < h * h) by nra. nra. }
      set (gg := if Rltb (stx v) (stp v) then - _ else _). clearbody gg. match goal with |- context [Rltb ?x 0 && _] => generalize x; intros r end.
      set (stpc := if Rltb r 0 && _ then _ else _). assert ((stpc - stp v) * h > 0) as Hc.
      { unfold stpc. destruct (Rltb r 0) eqn:E1; cbn [andb].
        - apply Rltb_true in E1. destruct (negb _).
          + assert (0 < h * h) by nra. nra.
          + destruct Ro as [[R1 R2]|[R1 R2]]; [rewrite (proj2 (Rltb_true _ _) R1); nra|rewrite (proj2 (Rltb_false _ _) (Rlt_le _ _ R1)); nra].
        - destruct Ro as [[R1 R2]|[R1 R2]]; [rewrite (proj2 (Rltb_true _ _) R1); nra|rewrite (proj2 (Rltb_false _ _) (Rlt_le _ _ R1)); nra]. }
      clearbody stpc stpq.
      destruct (brackt v) eqn:Bk.
      + set (f := if _ : bool then stpc else stpq). assert ((f - stp v) * h > 0) as Hf by (unfold f; destruct (Rltb _ _); auto). clearbody f. eexists. split; [reflexivity|].
        destruct (proj2 Br Bk) as [Bw _]. unfold smin, smax. prim. replace (66 / 100) with 0.66 by lra. destruct Ro as [[R1 R2]|[R1 R2]].
        * rewrite (proj2 (Rltb_true _ _) R1). assert (stp v < sty v) by (destruct Bw; lra). assert (stp v < f) by nra.
          destruct (Rltb f _) eqn:E; [apply Rltb_true in E|apply Rltb_false in E]; (split; [nra|intros _; left; lra]).
        * rewrite (proj2 (Rltb_false _ _) (Rlt_le _ _ R1)). assert (sty v < stp v) by (destruct Bw; lra). assert (f < stp v) by nra.
          destruct (Rltb _ f) eqn:E; [apply Rltb_true in E|apply Rltb_false in E]; (split; [nra|intros _; right; lra]).
      + set (f := if _ : bool then stpc else stpq). assert ((f - stp v) * h > 0) as Hf by (unfold f; destruct (Rltb _ _); auto). clearbody f. eexists. split; [reflexivity|]. split; [|discriminate].
        unfold smin, smax. prim. destruct Ro as [[R1 R2]|[R1 R2]].
        * assert (stp v < f) by nra. destruct (Rltb f stpmax); [destruct (Rltb f stpmin) eqn:E|destruct (Rltb stpmax stpmin) eqn:E]; try apply Rltb_true in E; try nra.
        * assert (f < stp v) by nra. destruct (Rltb f stpmax) eqn:E0; [destruct (Rltb f stpmin) eqn:E|apply Rltb_false in E0; destruct (Rltb stpmax stpmin) eqn:E]; try apply Rltb_true in E; try nra.
    - destruct (brackt v) eqn:Bk.
      + destruct (proj2 Br Bk) as [Bw Bh]. rewrite gamma_eq by auto. unfold cubic_theta. prim. rewrite (shift_lt (sty v)).
        assert (sty v - stp v <> 0) as Hs by (destruct Bw; lra).
        assert (dp * (sty v - stp v) < 0) as B3 by (destruct Bw; [assert (dp < 0) by nra|assert (0 < dp) by nra]; nra).
        assert (fp < fy v \/ 0 < dy v * (sty v - stp v)) as B4. { destruct Bh as [Bh|Bh]; [left; lra|right]. destruct Bw; [assert (0 < dy v) by nra|assert (dy v < 0) by nra]; nra. }
        pose proof (frac fp (fy v) dp (dy v) (sty v - stp v) B3 B4) as P. cbv zeta in P. unfold gam in P.
        replace (3 * (fp - fy v) / (sty v - stp v) + dp + dy v) with (3 * (fp - fy v) / (sty v - stp v) + dy v + dp) in P by ring. rewrite (Rmult_comm dp (dy v)) in P. set (r := _ / _) in P. fold r. clearbody r.
        eexists. split; [reflexivity|]. split; [assert (0 < (sty v - stp v) * h) as U by (destruct Bw; nra); assert (0 < r * ((sty v - stp v) * h)) by (apply Rmult_lt_0_compat; lra); lra|]. intros _. pose proof (at_fraction (stp v) (sty v - stp v) r Hs P) as W. replace (stp v + (sty v - stp v)) with (sty v) in W by ring. exact W.
      + eexists. split; [reflexivity|]. split; [|discriminate]. destruct Ro as [[R1 R2]|[R1 R2]]; [rewrite (proj2 (Rltb_true _ _) R1); nra|rewrite (proj2 (Rltb_false _ _) (Rlt_le _ _ R1)); nra].
  Qed.

  Theorem dcstep_keeps : let v' := dcstep v fp dp stpmin stpmax in
    bracket v' /\ fx v' <= fx v /\ fx v' <= fp /\ (brackt v = true -> brackt v' = true) /\ (fx v < fp \/ dx v * dp < 0 -> brackt v' = true) /\
    (brackt v = true -> let inside x := x = stx v \/ x = sty v \/ between x (stx v) (sty v) in inside (stx v') /\ inside (sty v')).
  Proof.
    intros v'. pose proof dx_nz as Dn. pose proof h_nz as Hn. pose proof (proj1 Br) as B. unfold v', dcstep. cbv zeta. prim. rewrite sgn_neg.
    destruct (Rltb (fx v) fp) eqn:E1; [apply Rltb_true in E1|apply Rltb_false in E1].
    - destruct (new1 E1) as (rho & R0 & ->). unfold bracket. cbn [stx sty stp fx fy dx dy brackt]. split; [|split; [lra|split; [lra|split; [auto|split; [auto|]]]]].
      + split; [nra|]. intros _. split; auto. pose proof (at_fraction (stx v) h rho Hn R0) as W. replace (stx v + h) with (stp v) in W by ring. exact W.
      + intros Bk. split; [left; auto|]. right; right. exact (proj1 (proj2 Br Bk)).
    - destruct (Rltb (dx v * dp) 0) eqn:E2; [apply Rltb_true in E2|apply Rltb_false in E2].
      + destruct (new2 E1 E2) as (rho & R0 & ->). unfold bracket. cbn [stx sty stp fx fy dx dy brackt]. assert (dp * (stx v - stp v) < 0) as B2 by nra.
        split; [|split; [lra|split; [lra|split; [auto|split; [auto|]]]]].
        * split; [nra|]. intros _. split; [|right; nra]. pose proof (at_fraction (stp v) (stx v - stp v) rho ltac:(lra) R0) as W. replace (stp v + (stx v - stp v)) with (stx v) in W by ring. exact W.
        * intros Bk. split; [right; right; exact (proj1 (proj2 Br Bk))|left; auto].
      + assert (0 < dx v * dp) as E3. { destruct E2 as [E2|E2]; auto. symmetry in E2. apply Rmult_integral in E2 as [|]; contradiction. }
        destruct (new34 E1 E3) as (s & -> & S1 & S2). unfold bracket. cbn [stx sty stp fx fy dx dy brackt].
        assert (dp * h < 0) as B2. { destruct (Rdichotomy _ _ Hn); [assert (0 < dx v) by nra; assert (0 < dp) by nra|assert (dx v < 0) by nra; assert (dp < 0) by nra]; nra. }
        split; [|split; [lra|split; [lra|split; [auto|split; [intros [W|W]; lra|]]]]].
        * split; [destruct (Rdichotomy _ _ Hn); [assert (0 < dp) by nra|assert (dp < 0) by nra]; nra|]. intros Bk. split; [auto|]. destruct (proj2 Br Bk) as [Bw Bh].
          destruct Bh as [Bh|Bh]; [left; lra|right]. destruct Bw; [assert (0 < dy v) by nra|assert (dy v < 0) by nra]; nra.
        * intros Bk. split; [right; right; exact (proj1 (proj2 Br Bk))|right; left; auto].
  Qed.
End Step.
