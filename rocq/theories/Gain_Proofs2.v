From Coq Require Import Arith Lia List ZArith NArith Bool Reals Lra.
From Verif Require Import Lib_Ring Lib_Real Lib_Res CCM_Model SBM_Model SBM_Spec SBM_Proofs SBM_Proofs2 LinSolve_Model LinSolve_Spec LinSolve_Proofs LinSolve_Proofs2 Gain_Spec Gain_Proofs.
Import ListNotations.
Local Open Scope R_scope.

(** ** from rows to error terms *)
Definition inside (l : list nat) (b q : nat) : bool := (base l b <=? q)%nat && (q <? base l b + bsize l b)%nat.
Definition sc_at (l : list nat) (s : nat -> R) (q : nat) : R := ksum (length l) (fun b => if inside l b q then s b else 0).
Lemma sc_tile : forall l s b i, layout_ok l -> (b < length l)%nat -> (i < bsize l b)%nat -> sc_at l s (base l b + i) = s b.
Proof.
  intros l s b i Lo Hb Hi. unfold sc_at. rewrite (ksum_ext (length l) _ (fun b' => kmul (delta b b') (s b'))); [exact (@ksum_delta_l R RRing (length l) b s Hb)|].
  intros b' Hb'. unfold inside. rewrite (tile_test l b' b i) by auto. unfold delta. rewrite Nat.eqb_sym. destruct (_ =? _)%nat; kr; ring.
Qed.
Definition Js (l : list nat) (s : nat -> R) (ts : list (lterm R)) : mat R := fun r q => J_of l ts r q * sc_at l s q.
Lemma Js_scaled : forall l s ts, layout_ok l -> scaled_cols l s (J_of l ts) (Js l s ts).
Proof. intros l s ts Lo r b i Hb Hi. unfold Js. rewrite sc_tile by auto. reflexivity. Qed.
Lemma window : forall n a m (g : nat -> R), (a + m <= n)%nat -> ksum n (fun q => if (a <=? q)%nat && (q <? a + m)%nat then g q else 0) = ksum m (fun i => g (a + i)%nat).
Proof.
  intros n a m g H. replace n with (a + (m + (n - a - m)))%nat by lia. rewrite ksum_split, ksum_split. rewrite (zeroR a), (zeroR (n - a - m)).
  - kr. rewrite Rplus_0_l, Rplus_0_r. apply ksum_ext. intros i Hi. rewrite (proj2 (Nat.leb_le a (a + i))), (proj2 (Nat.ltb_lt (a + i) (a + m))) by lia. reflexivity.
  - intros i Hi. rewrite (proj2 (Nat.ltb_ge (a + (m + i)) (a + m))) by lia. rewrite andb_false_r. reflexivity.
  - intros i Hi. rewrite (proj2 (Nat.leb_gt a i)) by lia. reflexivity.
Qed.
Lemma lsumR_ksum : forall A (L : list A) n (f : A -> nat -> R), ksum n (fun i => lsum L (fun a => f a i)) = lsum L (fun a => ksum n (f a)).
Proof. intros. symmetry. exact (@lsum_ksum_swap R RRing A L n f). Qed.
Lemma raw_sum : forall l s t y k, layout_ok l -> lterm_ok l t -> ksum (total l) (fun q => raw_jac l t k q * (sc_at l s q * y q)) = lin_change l s t y k.
Proof.
  intros l s t y k Lo (_ & F). unfold raw_jac, lin_change.
  rewrite (ksum_ext (total l) _ (fun q => lsum (lt_jac t) (fun e => if inside l (fst e) q then snd e k (q - base l (fst e))%nat * (sc_at l s q * y q) else 0))).
  2:{ intros q Hq. etransitivity; [symmetry; exact (@lsum_mul_r R RRing _ (lt_jac t) (sc_at l s q * y q) _)|]. apply lsum_ext. intros e He. unfold inside. destruct (_ && _); kr; ring. }
  rewrite lsumR_ksum. apply lsum_ext. intros e He. rewrite Forall_forall in F. specialize (F e He). unfold inside.
  rewrite (window (total l) (base l (fst e)) (bsize l (fst e)) (fun q => snd e k (q - base l (fst e))%nat * (sc_at l s q * y q))) by (apply dv_end; auto).
  apply ksum_ext. intros i Hi. rewrite sc_tile by auto. replace (base l (fst e) + i - base l (fst e))%nat with i by lia. reflexivity.
Qed.
(* sqrt(w) S^T u *)
Definition wrow (t : lterm R) (u : vec R) (p : nat) : R := ksum (lt_dim t) (fun k => (lt_sw t * lt_S t k p) * u k).
Lemma wrow_prod : forall t u v, ksum (lt_dim t) (fun p => wrow t u p * wrow t v p) = wprod t u v.
Proof.
  intros t u v. unfold wprod, wrow, mmul, mtr. rewrite <- ksumR_mul.
  rewrite (ksum_ext (lt_dim t) (fun p => _ * _) (fun p => ksum (lt_dim t) (fun k => ksum (lt_dim t) (fun k' => lt_sw t * lt_sw t * (u k * (lt_S t k p * lt_S t k' p) * v k'))))).
  2:{ intros p Hp. rewrite Rmult_comm, <- ksumR_mul. apply ksum_ext. intros k Hk. rewrite Rmult_comm, <- ksumR_mul. apply ksum_ext. intros k' Hk'. ring. }
  rewrite ksumR_swap. apply ksum_ext. intros k Hk. rewrite ksumR_swap, <- ksumR_mul. apply ksum_ext. intros k' Hk'. rewrite ksumR_mul. f_equal.
  transitivity (u k * v k' * ksum (lt_dim t) (fun p => lt_S t k p * lt_S t k' p)); [|kr; ring]. rewrite <- ksumR_mul. apply ksum_ext. intros. ring.
Qed.
Lemma Jm_rows : forall l s ts y r, layout_ok l -> Forall (lterm_ok l) ts -> Jm (total l) (Js l s ts) y r = stackf (fun t => wrow t (lin_change l s t y)) ts r.
Proof.
  intros l s ts y r Lo F. unfold Jm, mvmul, Js. revert r. induction F as [|t ts Ft Fts IH]; intros r.
  - cbn [J_of stackf]. apply zeroR. intros. kr. ring.
  - cbn [J_of stackf]. destruct (r <? lt_dim t)%nat; [|apply IH]. unfold term_jac, wrow.
    rewrite (ksum_ext (total l) _ (fun q => ksum (lt_dim t) (fun k => lt_sw t * lt_S t k r * (raw_jac l t k q * (sc_at l s q * y q))))).
    2:{ intros q Hq. kr. rewrite Rmult_assoc, Rmult_comm, <- ksumR_mul. apply ksum_ext. intros. kr. ring. }
    rewrite ksumR_swap. apply ksum_ext. intros k Hk. rewrite ksumR_mul, raw_sum by auto. reflexivity.
Qed.
Lemma e_rows : forall ts r, e_of ts r = stackf (fun t => wrow t (lt_err t)) ts r.
Proof. intros. exact (e_stack ts r). Qed.
Lemma stackR_prod : forall (f g : lterm R -> vec R) ts, ksum (jrows ts) (fun r => stackf (fun t => wrow t (f t)) ts r * stackf (fun t => wrow t (g t)) ts r) = lsum ts (fun t => wprod t (f t) (g t)).
Proof.
  intros f g ts. rewrite (ksum_ext _ _ (stackf (fun t r => kmul (wrow t (f t) r) (wrow t (g t) r)) ts)) by (intros r Hr; exact (stack_mul _ _ ts r)).
  rewrite stack_sum. apply lsum_ext. intros t _. apply wrow_prod.
Qed.
Lemma stack_addR : forall (f g : lterm R -> nat -> R) ts r, stackf f ts r + stackf g ts r = stackf (fun t r => f t r + g t r) ts r.
Proof. intros f g ts. induction ts as [|t ts IH]; intros r; cbn [stackf]; [kr; ring|]. destruct (r <? lt_dim t)%nat; auto. Qed.
Lemma stack_ext : forall (f g : lterm R -> nat -> R) ts r, (forall t p, f t p = g t p) -> stackf f ts r = stackf g ts r.
Proof. intros f g ts r H. revert r. induction ts as [|t ts IH]; intros r; cbn [stackf]; auto. destruct (r <? lt_dim t)%nat; auto. Qed.

Section Terms.
  Variables (l : list nat) (s : nat -> R) (ts : list (lterm R)) (c x : vec R).
  Hypothesis Lo : layout_ok l.
  Hypothesis F : Forall (lterm_ok l) ts.
  Hypothesis NE : normal_equations (jrows ts) (total l) (Js l s ts) (e_of ts) c x.
  Let rc := rcost (jrows ts) (total l) (Js l s ts) (e_of ts) c.
  Let N2 := NN (jrows ts) (total l) (Js l s ts) c.
  Let G1 := GG (jrows ts) (total l) (Js l s ts) (e_of ts).
  Lemma cost_rows : forall y, damped_cost l s ts c y = rc y.
  Proof.
    intros y. unfold damped_cost, rc, rcost. f_equal. rewrite <- (stackR_prod (fun t k => lt_err t k + lin_change l s t y k) (fun t k => lt_err t k + lin_change l s t y k)). apply ksum_ext. intros r Hr.
    assert (A : stackf (fun t => wrow t (fun k => lt_err t k + lin_change l s t y k)) ts r = e_of ts r + Jm (total l) (Js l s ts) y r).
    { rewrite Jm_rows, e_rows, stack_addR by auto. apply stack_ext. intros t p. unfold wrow. rewrite <- ksumR_add. apply ksum_ext. intros. ring. }
    rewrite A. reflexivity.
  Qed.
  Lemma grad_rows : forall y, lsum ts (fun t => wprod t (lt_err t) (lin_change l s t y)) = G1 y.
  Proof. intros y. unfold G1, GG. rewrite <- (stackR_prod (fun t => lt_err t) (fun t => lin_change l s t y)). apply ksum_ext. intros r Hr. rewrite Jm_rows, e_rows by auto. reflexivity. Qed.
  Lemma cost_at : forall y, damped_cost l s ts c y = damped_cost l s ts c x + N2 (fun p => y p - x p) (fun p => y p - x p).
  Proof.
    intros y. rewrite !cost_rows. unfold rc, N2. rewrite <- (rcost_split _ _ _ _ _ _ NE). unfold rcost. f_equal.
    - apply ksum_ext. intros r Hr. assert (A : Jm (total l) (Js l s ts) y r = Jm (total l) (Js l s ts) (fun p => x p + (y p - x p)) r) by (unfold Jm, mvmul; apply ksum_ext; intros; kr; ring). rewrite A. reflexivity.
    - apply ksum_ext. intros p Hp. ring.
  Qed.
  Lemma best_min : forall y, damped_cost l s ts c x <= damped_cost l s ts c y.
  Proof. intros y. rewrite (cost_at y). assert (A := NN_nonneg (jrows ts) (total l) (Js l s ts) c (fun p => y p - x p)). fold N2 in A. lra. Qed.
  Lemma best_only : (forall p, (p < total l)%nat -> c p <> 0) -> forall y, damped_cost l s ts c y <= damped_cost l s ts c x -> forall p, (p < total l)%nat -> y p = x p.
  Proof.
    intros Hc y H p Hp. rewrite (cost_at y) in H. assert (A := NN_nonneg (jrows ts) (total l) (Js l s ts) c (fun p => y p - x p)). fold N2 in A.
    assert (Z : N2 (fun p => y p - x p) (fun p => y p - x p) = 0) by lra. destruct (NN_zero _ _ _ _ _ Z) as (_ & B). specialize (B p Hp). apply Rmult_integral in B. destruct B as [B|B]; [destruct (Hc p Hp B)|lra].
  Qed.
  Lemma moves : ~ stationary l s ts -> 0 < N2 x x.
  Proof.
    intros NS. assert (A := NN_nonneg (jrows ts) (total l) (Js l s ts) c x). fold N2 in A. destruct (Rle_lt_or_eq_dec _ _ A) as [H|H]; auto. exfalso. apply NS. intros y. rewrite grad_rows. apply (NN_x0 _ _ _ _ _ _ NE). symmetry. exact H.
  Qed.
  Lemma best_less : ~ stationary l s ts -> damped_cost l s ts c x < damped_cost l s ts c (fun _ => 0).
  Proof.
    intros NS. rewrite (cost_at (fun _ => 0)). assert (A := moves NS). assert (E : N2 (fun p => 0 - x p) (fun p => 0 - x p) = N2 x x); [|lra].
    unfold N2, NN. assert (Q : forall r, Jm (total l) (Js l s ts) (fun p => 0 - x p) r = - Jm (total l) (Js l s ts) x r).
    { intros r. unfold Jm, mvmul. rewrite (ksum_ext _ _ (fun p => -1 * (Js l s ts r p * x p))) by (intros; kr; ring). rewrite ksumR_mul. kr. ring. }
    f_equal; apply ksum_ext; intros; rewrite ?Q; ring.
  Qed.
End Terms.
