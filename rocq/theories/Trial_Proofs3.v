(** * C90: a bracket holds a minimum; the search keeps the measured values *)
From Coq Require Import Reals Lra Psatz Bool Arith.
From Verif Require Import Lib_Num Lib_Res LineSearch_Model.
From Verif Require Import Trial_Spec Trial_Proofs.
Open Scope R_scope.

Lemma downhill : forall phi a b l, derivable_pt_lim phi a l -> l * (b - a) < 0 -> exists t, between t a b /\ phi t < phi a.
Proof.
  intros phi a b l D H. assert (l <> 0) as L by nra. destruct (D (Rabs l / 2)) as (delta & Hd). { pose proof (Rabs_pos_lt l L). lra. }
  assert (b - a <> 0) as Hb by nra. pose proof (cond_pos delta) as Dp. pose proof (Rabs_pos_lt _ Hb) as Ap.
  set (k := Rmin (delta / 2) (Rabs (b - a) / 2)). assert (0 < k /\ k < delta /\ k < Rabs (b - a)) as (K0 & K1 & K2).
  { unfold k. split; [apply Rmin_glb_lt; lra|]. pose proof (Rmin_l (delta / 2) (Rabs (b - a) / 2)). pose proof (Rmin_r (delta / 2) (Rabs (b - a) / 2)). lra. }
  assert (forall h, h <> 0 -> Rabs h < delta -> l * h < 0 -> phi (a + h) < phi a) as Low.
  { intros h Hh Hs Hl. specialize (Hd h Hh Hs). set (q := (phi (a + h) - phi a) / h) in *. assert (phi (a + h) - phi a = q * h) as E by (unfold q; field; auto).
    assert (0 < q * l) as Q. { apply Rabs_def2 in Hd. destruct (Rdichotomy _ _ L); [rewrite Rabs_left in Hd by auto|rewrite Rabs_pos_eq in Hd by lra]; nra. }
    assert (q * h < 0). { destruct (Rdichotomy _ _ L); destruct (Rdichotomy _ _ Hh); nra. } lra. }
  destruct (Rdichotomy _ _ Hb) as [G|G].
  - rewrite (Rabs_left _ G) in K2. exists (a + - k). split; [right; lra|]. apply Low; [lra|rewrite Rabs_Ropp, Rabs_pos_eq; lra|]. assert (0 < l) by nra. nra.
  - rewrite (Rabs_pos_eq (b - a)) in K2 by lra. exists (a + k). split; [left; lra|]. apply Low; [lra|rewrite Rabs_pos_eq; lra|]. assert (l < 0) by nra. nra.
Qed.

Theorem bracket_means : forall phi phi' (v : dc R), (forall x, derivable_pt_lim phi x (phi' x)) -> bracket v -> brackt v = true ->
  fx v = phi (stx v) -> dx v = phi' (stx v) -> fy v = phi (sty v) -> dy v = phi' (sty v) ->
  exists t, between t (stx v) (sty v) /\ phi' t = 0 /\ phi t < phi (stx v) /\ forall u, between u (stx v) (sty v) -> phi t <= phi u.
Proof.
  intros phi phi' v D (B1 & B2) Bk Fx Dx Fy Dy. destruct (B2 Bk) as [Bw Bh]. clear B2. rewrite Fx, Fy, Dy in Bh. rewrite Dx in B1. clear Fx Dx Fy Dy.
  set (a := stx v) in *. set (b := sty v) in *. assert (phi' a * (b - a) < 0) as Da by (destruct Bw; nra). clearbody a b. clear B1 Bw Bk.
  destruct (downhill phi a b (phi' a) (D a) Da) as (t1 & T1 & L1).
  assert (exists t2, between t2 a b /\ phi t2 < phi b) as (t2 & T2 & L2).
  { destruct Bh as [H|H]; [exists t1; split; [auto|lra]|]. destruct (downhill phi b a (phi' b) (D b)) as (t2 & T2 & L2); [lra|]. exists t2. split; auto. destruct T2; [right|left]; lra. }
  assert (Rmin a b <= Rmax a b) as O by (apply Rle_trans with a; [apply Rmin_l|apply Rmax_l]).
  assert (forall u, between u a b -> Rmin a b <= u <= Rmax a b) as Bet.
  { intros u [Hu|Hu]; [rewrite Rmin_left, Rmax_right by lra|rewrite Rmin_right, Rmax_left by lra]; lra. }
  destruct (continuity_ab_min phi (Rmin a b) (Rmax a b) O) as (t & Tm & Ti).
  { intros c _. apply derivable_continuous_pt. exists (phi' c). apply D. }
  assert (t <> a) as Na. { intros ->. specialize (Tm t1 (Bet t1 T1)). lra. }
  assert (t <> b) as Nb. { intros ->. specialize (Tm t2 (Bet t2 T2)). lra. }
  assert (between t a b) as Tb. { destruct (Rle_lt_dec a b) as [H|H]; [rewrite Rmin_left, Rmax_right in Ti by lra; left; lra|rewrite Rmin_right, Rmax_left in Ti by lra; right; lra]. }
  exists t. split; [auto|]. split; [|split; [specialize (Tm t1 (Bet t1 T1)); lra|auto]].
  destruct (Req_dec (phi' t) 0) as [Z|Z]; auto. exfalso.
  assert (exists c, (c = a \/ c = b) /\ phi' t * (c - t) < 0) as (c & Hc & Hl).
  { destruct Tb as [Tb|Tb]; destruct (Rdichotomy _ _ Z) as [Y|Y]; [exists b|exists a|exists a|exists b]; (split; [auto|clear - Tb Y]; nra). }
  destruct (downhill phi t c (phi' t) (D t) Hl) as (u & U & Lu).
  assert (between u a b) as Ub by (clear - Hc U Tb; destruct Hc; subst c; destruct U; destruct Tb; try lra; unfold between; lra).
  specialize (Tm u (Bet u Ub)). lra.
Qed.

(** the search *)
Section Run.
  Variables phi phi' : R -> R.
  Notation measured := (measured phi phi').
  Lemma dcstep_measured : forall v a b (f f' : R -> R), fx v = f (stx v) -> dx v = f' (stx v) -> fy v = f (sty v) -> dy v = f' (sty v) ->
    let r := dcstep v (f (stp v)) (f' (stp v)) a b in fx r = f (stx r) /\ dx r = f' (stx r) /\ fy r = f (sty r) /\ dy r = f' (sty r).
  Proof. intros v a b f f' H1 H2 H3 H4. unfold dcstep. cbv zeta. destruct (dcstep_new v (f (stp v)) (f' (stp v)) a b) as [s bb]. destruct (nlt _ _); [cbn; auto|]. destruct (nlt _ _); cbn; auto. Qed.
  Lemma dcstep_fx : forall v fp dp a b, let r := dcstep v fp dp a b in (stx r = stx v /\ fx r = fx v) \/ (stx r = stp v /\ fx r = fp /\ fp <= fx v).
  Proof.
    intros. unfold r, dcstep. destruct (dcstep_new v fp dp a b) as [s bb]. prim. destruct (Rltb (fx v) fp) eqn:E; [left; auto|apply Rltb_false in E]. right. destruct (Rltb _ _); cbn; auto.
  Qed.
  Lemma move_measured : forall s stage, measured (s_dc s) -> let r := dcsrch_move s stage (phi (stp (s_dc s))) (phi' (stp (s_dc s))) in measured r /\ fx r <= fx (s_dc s).
  Proof.
    intros s stage M. unfold dcsrch_move. cbv zeta. prim. destruct M as (M1 & M2 & M3 & M4). set (v := s_dc s) in *. set (g := s_gtest s).
    destruct ((stage =? 1)%nat && Rleb (phi (stp v)) (fx v)) eqn:E0; cbn [andb].
    - apply andb_true_iff in E0 as [_ E0]. apply Rleb_true in E0. destruct (Rltb (s_finit s + stp v * g) (phi (stp v))) eqn:E1.
      + set (w := mkDc (stx v) (fx v - stx v * g) (dx v - g) (sty v) (fy v - sty v * g) (dy v - g) (stp v) (brackt v)).
        pose proof (dcstep_measured w (s_stmin s) (s_stmax s) (fun x => phi x - x * g) (fun x => phi' x - g)) as P. cbv zeta in P. assert (stp w = stp v) as Sw by reflexivity. rewrite Sw in P. specialize (P ltac:(cbn; rewrite M1; reflexivity) ltac:(cbn; rewrite M2; reflexivity) ltac:(cbn; rewrite M3; reflexivity) ltac:(cbn; rewrite M4; reflexivity)).
        pose proof (dcstep_fx w (phi (stp v) - stp v * g) (phi' (stp v) - g) (s_stmin s) (s_stmax s)) as Q. cbv zeta in Q. change (stx w) with (stx v) in Q. change (fx w) with (fx v - stx v * g) in Q. rewrite Sw in Q. clearbody w.
        set (r := dcstep _ _ _ _ _) in *. unfold Trial_Spec.measured. cbn [stx sty fx fy dx dy]. destruct P as (P1 & P2 & P3 & P4). split; [repeat split; lra|]. rewrite M1 in E0. destruct Q as [[Q1 Q2]|(Q1 & Q2 & Q3)]; [rewrite Q1, Q2; lra|rewrite Q1, Q2; lra].
      + split; [apply (dcstep_measured v _ _ phi phi'); auto|]. destruct (dcstep_fx v (phi (stp v)) (phi' (stp v)) (s_stmin s) (s_stmax s)) as [[Q1 Q2]|(Q1 & Q2 & Q3)]; lra.
    - split; [apply (dcstep_measured v _ _ phi phi'); auto|]. destruct (dcstep_fx v (phi (stp v)) (phi' (stp v)) (s_stmin s) (s_stmax s)) as [[Q1 Q2]|(Q1 & Q2 & Q3)]; lra.
  Qed.
  Lemma bound_same : forall s stage v, let r := s_dc (dcsrch_bound s stage v) in stx r = stx v /\ fx r = fx v /\ dx r = dx v /\ sty r = sty v /\ fy r = fy v /\ dy r = dy v.
  Proof. intros. unfold r, dcsrch_bound. cbv zeta. destruct (brackt v); cbn; auto 6. Qed.
  Notation search_call := (search_call phi phi').
  Lemma call_measured : forall s, measured (s_dc s) -> measured (s_dc (search_call s)) /\ fx (s_dc (search_call s)) <= fx (s_dc s).
  Proof.
    intros s M. unfold Trial_Spec.search_call, updateStepLength. destruct (s_stage s) eqn:Es; [cbn; split; [auto|lra]|]. destruct (dcsrch_test _ _ _) as [stage status]. destruct status; cbn [snd]; try (cbn; split; [auto|lra]).
    set (s1 := mkDs _ _ _ _ _ _ _ _ _ _ _ _ _). pose proof (move_measured s1 stage M) as [P1 P2]. cbv zeta in P1, P2. change (s_dc s1) with (s_dc s) in *.
    set (r := dcsrch_move _ _ _ _) in *. pose proof (bound_same s1 stage r) as (Q1 & Q2 & Q3 & Q4 & Q5 & Q6). cbv zeta in *. unfold Trial_Spec.measured in *. rewrite Q1, Q2, Q3, Q4, Q5, Q6. auto.
  Qed.
  Theorem search_kept : forall init mn mx ftol xtol gtol s0, dcsrch_new init (phi 0) (phi' 0) mn mx ftol xtol gtol = Ok s0 -> forall n, let v := s_dc (search phi phi' n s0) in
    measured v /\ fx v <= phi 0 /\ fx (s_dc (search phi phi' (S n) s0)) <= fx v.
  Proof.
    intros init mn mx ftol xtol gtol s0 H. assert (measured (s_dc s0) /\ fx (s_dc s0) = phi 0) as [M0 F0].
    { unfold dcsrch_new in H. prim. destruct (Rltb _ _); [|discriminate]. injection H as <-. unfold Trial_Spec.measured. cbn. unfold lit. cbn. replace (0 / 1) with 0 by field. auto. }
    assert (forall n, measured (s_dc (search phi phi' n s0)) /\ fx (s_dc (search phi phi' n s0)) <= phi 0) as A.
    { induction n as [|n [I1 I2]]; [cbn; split; [auto|lra]|]. destruct (call_measured _ I1) as [C1 C2]. cbn [search]. split; [exact C1|lra]. }
    intros n. cbv zeta. destruct (A n) as [A1 A2]. split; [auto|split; [auto|]]. exact (proj2 (call_measured _ A1)).
  Qed.
End Run.
