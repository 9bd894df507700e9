From Coq Require Import Arith Lia List ZArith NArith Bool Reals Lra.
From Verif Require Import Lib_Ring Lib_Real Lib_Res CCM_Model SBM_Model SBM_Spec SBM_Proofs SBM_Proofs2 LinSolve_Model LinSolve_Spec LinSolve_Proofs LinSolve_Proofs2 Gain_Spec Gain_Proofs Gain_Proofs2 Gain_Proofs3 Policy_Model Policy_Spec Policy_Proofs Policy_Proofs2 LMLive_Spec LMLive_Proofs LMLive_Proofs2.
Import ListNotations.
Local Open Scope R_scope.

Section Gain.
  Variables (l : list nat) (s : nat -> R) (ts : list (lterm R)) (lam : R) (x : vec R).
  Hypothesis Lo : layout_ok l.
  Hypothesis F : Forall (lterm_ok l) ts.
  Hypothesis NE : normal_equations (jrows ts) (total l) (Js l s ts) (e_of ts) (fun _ => lam) x.
  Let JJ := ksum (jrows ts) (fun r => Jm (total l) (Js l s ts) x r * Jm (total l) (Js l s ts) x r).
  Let G := GG (jrows ts) (total l) (Js l s ts) (e_of ts) x.
  Let Q := vdot (total l) x x.
  Lemma ne_x : JJ + lam * lam * Q + G = 0.
  Proof.
    assert (A := ne_all _ _ _ _ _ _ NE x). unfold NN in A. unfold JJ, G, Q, vdot. rewrite (ksum_ext (total l) (fun p => lam * x p * (lam * x p)) (fun p => lam * lam * kmul (x p) (x p))) in A by (intros; kr; ring).
    rewrite ksumR_mul in A. exact A.
  Qed.
  Lemma pred_eq : predicted l s ts x = - G + lam * lam * Q.
  Proof.
    assert (A := ne_x). unfold predicted. rewrite !(cost_rows l s ts (fun _ => 0) Lo F). unfold rcost.
    rewrite (ksum_ext (jrows ts) (fun r => (e_of ts r + Jm (total l) (Js l s ts) no_step r) * (e_of ts r + Jm (total l) (Js l s ts) no_step r)) (fun r => e_of ts r * e_of ts r)).
    2:{ intros r Hr. assert (Z : Jm (total l) (Js l s ts) no_step r = 0) by (unfold Jm, mvmul; apply zeroR; intros; unfold no_step; kr; ring). rewrite Z. ring. }
    rewrite (ksum_ext (jrows ts) (fun r => (e_of ts r + Jm (total l) (Js l s ts) x r) * (e_of ts r + Jm (total l) (Js l s ts) x r))
      (fun r => e_of ts r * e_of ts r + (Jm (total l) (Js l s ts) x r * Jm (total l) (Js l s ts) x r + 2 * (e_of ts r * Jm (total l) (Js l s ts) x r)))) by (intros; ring).
    rewrite !ksumR_add, ksumR_mul. rewrite !(zeroR (total l)) by (intros; ring). fold JJ. change (ksum (jrows ts) (fun i => e_of ts i * Jm (total l) (Js l s ts) x i)) with G. lra.
  Qed.
  Variable rh : vec R.
  Hypothesis Hr : forall p, (p < total l)%nat -> rh p = - mvmul (jrows ts) (mtr (Js l s ts)) (e_of ts) p.
  Lemma denominator : vdot (total l) x (vadd (vscale lam x) rh) = predicted l s ts x + (lam - lam * lam) * Q.
  Proof.
    rewrite pred_eq. assert (A : vdot (total l) x (vadd (vscale lam x) rh) = lam * Q - G); [|rewrite A; ring]. unfold G, GG. rewrite <- swap_J. unfold Q, vdot, vadd, vscale.
    transitivity (ksum (total l) (fun p => lam * kmul (x p) (x p) + (-1) * (x p * ksum (jrows ts) (fun r => Js l s ts r p * e_of ts r)))).
    - apply ksum_ext. intros p Hp. rewrite Hr by auto. unfold mvmul, mtr. kr. ring.
    - rewrite ksumR_add, !ksumR_mul. ring.
  Qed.
  Lemma Q_pos : 0 <= Q.
  Proof. unfold Q, vdot. apply ksumR_nonneg. intros. kr. nra. Qed.
  Lemma gain : forall st, lambda st = Some lam -> rhs (lm_sys st) = rh -> gain_ok l s ts lam (get_dJ (lm_base st)) x (getLmRho (total l) st x).
  Proof.
    intros st La Rh. unfold gain_ok, getLmRho. rewrite La, Rh, denominator. fold Q. split; auto. split; [intros ->; f_equal; ring|]. intros Pl NS.
    assert (Mv := moves l s ts (fun _ => lam) x Lo F NE NS). assert (A := ne_all _ _ _ _ _ _ NE x). fold G in A. assert (PG : 0 < - G) by (unfold G in *; lra). assert (PQ := Q_pos).
    assert (PP : 0 < predicted l s ts x) by (rewrite pred_eq; nra). assert (D : 0 < predicted l s ts x + (lam - lam * lam) * Q) by (rewrite pred_eq; nra). split; auto.
    set (dd := predicted l s ts x + (lam - lam * lam) * Q) in *. unfold xdiv. destruct (Req_EM_T dd 0) as [E|E]; [lra|]. eexists. split; [reflexivity|]. split; intros H.
    - apply (Rmult_lt_compat_r dd) in H; auto. unfold Rdiv in H. rewrite Rmult_assoc, Rinv_l in H by lra. lra.
    - apply Rdiv_lt_0_compat; auto.
  Qed.
End Gain.
Lemma block_gain : forall bsolve s l ts H A lam, layout_ok l -> represents H l l A -> Forall (lterm_ok l) ts -> symmetric_solver bsolve ->
  exists H' rh b' sol, bc_build s ts H = Ok (H', rh) /\ bc_solve bsolve (mkBc H' rh (fun _ => lam) true) = Ok (b', sol) /\
    forall x st, sol = Some x -> lambda st = Some lam -> rhs (lm_sys st) = rh -> gain_ok l s ts lam (get_dJ (lm_base st)) x (getLmRho (total l) st x).
Proof.
  intros bsolve s l ts H A lam Lo Rp F So. destruct (c49_block bsolve s l ts H A (Js l s ts) (fun _ => lam) true Lo Rp F (Js_scaled l s ts Lo) So) as (H' & rh & b' & sol & E1 & E2 & N).
  exists H', rh, b', sol. split; auto. split; auto. intros x st Ex La Rh. destruct (bc_build_ok s l ts H A (Js l s ts) Lo Rp F (Js_scaled l s ts Lo)) as (H2 & rh2 & E3 & _ & V). rewrite E1 in E3. injection E3 as <- <-.
  exact (gain l s ts lam x Lo F (N x Ex) rh V st La Rh).
Qed.
Lemma sparse_gain : forall csolve l ts e0 lam m, buildable l ts m -> aat_solver csolve ->
  exists x sol, sc_build l ts (eval_errors ts 0 e0) (repeat lam (total l)) true m = Ok x /\ sc_solve csolve x = Ok (x, sol) /\
    forall dx st, sol = Some dx -> lambda st = Some lam -> rhs (lm_sys st) = sc_rhs x -> gain_ok l (fun _ => 1) ts lam (get_dJ (lm_base st)) dx (getLmRho (total l) st dx).
Proof.
  intros csolve l ts e0 lam m B So. destruct (c49_sparse_cholesky csolve l ts e0 (repeat lam (total l)) true m B (repeat_length _ _) So) as (x & sol & E1 & E2 & N). exists x, sol. split; auto. split; auto. intros dx st Ex La Rh.
  pose proof B as (Lo & _ & F & _). destruct (sc_build_ok l ts (eval_errors ts 0 e0) (repeat lam (total l)) true m B) as (x2 & E3 & _ & _ & _ & _ & _ & V & _). rewrite E1 in E3. injection E3 as <-.
  refine (gain l (fun _ => 1) ts lam dx Lo F _ (sc_rhs x) _ st La Rh).
  - apply ne_one; auto. specialize (N dx Ex). revert N. unfold normal_equations. apply solves_ext; auto. intros p q Hp Hq. unfold damped_normal. rewrite nth_repeatR by auto. reflexivity.
  - intros p Hp. rewrite V by auto. transitivity (- mvmul (jrows ts) (mtr (J_of l ts)) (e_of ts) p).
    + apply (neg_mvmul (R := RRing)). intros i Hi. rewrite eval_errors_ok by lia. rewrite Nat.sub_0_r. reflexivity.
    + f_equal. unfold mvmul, mtr. apply ksum_ext. intros r Hr. rewrite Js_one by auto. reflexivity.
Qed.
