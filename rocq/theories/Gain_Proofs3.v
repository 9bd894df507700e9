From Coq Require Import Arith Lia List ZArith NArith Bool Reals Lra.
From Verif Require Import Lib_Ring Lib_Real Lib_Res CCM_Model SBM_Model SBM_Spec SBM_Proofs SBM_Proofs2 LinSolve_Model LinSolve_Spec LinSolve_Proofs LinSolve_Proofs2 Gain_Spec Gain_Proofs Gain_Proofs2.
Import ListNotations.
Local Open Scope R_scope.

(** ** descent of the real cost *)
Lemma der_eq' : forall f x a b, a = b -> derivable_pt_lim f x a -> derivable_pt_lim f x b.
Proof. intros f x a b -> H. exact H. Qed.
Lemma der_lsum : forall A (L : list A) (f : A -> R -> R) (f' : A -> R) x, (forall a, In a L -> derivable_pt_lim (f a) x (f' a)) -> derivable_pt_lim (fun h => lsum L (fun a => f a h)) x (lsum L f').
Proof.
  intros A L f f' x. induction L as [|a L IH]; intros H; cbn [lsum].
  - apply derivable_pt_lim_const.
  - apply (derivable_pt_lim_plus (f a) (fun h => lsum L (fun a => f a h))); [apply H; cbn; auto|apply IH; intros; apply H; cbn; auto].
Qed.
Lemma inv_sym : forall (t : lterm R) k k', mmul (lt_dim t) (lt_S t) (mtr (lt_S t)) k k' = mmul (lt_dim t) (lt_S t) (mtr (lt_S t)) k' k.
Proof. intros. unfold mmul, mtr. apply ksum_ext. intros. kr. ring. Qed.
Lemma squared_der : forall t (E : R -> vec R) (d : vec R), (forall k, (k < lt_dim t)%nat -> E 0 k = lt_err t k /\ derivable_pt_lim (fun h => E h k) 0 (d k)) ->
  derivable_pt_lim (fun h => squared t (E h)) 0 (2 * ksum (lt_dim t) (fun k => ksum (lt_dim t) (fun k' => lt_err t k * mmul (lt_dim t) (lt_S t) (mtr (lt_S t)) k k' * d k'))).
Proof.
  intros t E d H. set (M := mmul (lt_dim t) (lt_S t) (mtr (lt_S t))) in *. unfold squared. fold M. set (n := lt_dim t) in *.
  apply (der_eq' _ _ (ksum n (fun k => ksum n (fun k' => d k * M k k' * lt_err t k' + lt_err t k * M k k' * d k')))).
  - transitivity (ksum n (fun k => ksum n (fun k' => d k * M k k' * lt_err t k')) + ksum n (fun k => ksum n (fun k' => lt_err t k * M k k' * d k'))).
    { rewrite <- ksumR_add. apply ksum_ext. intros. rewrite <- ksumR_add. reflexivity. }
    assert (A : ksum n (fun k => ksum n (fun k' => d k * M k k' * lt_err t k')) = ksum n (fun k => ksum n (fun k' => lt_err t k * M k k' * d k'))); [|rewrite A; ring].
    rewrite ksumR_swap. apply ksum_ext. intros k Hk. apply ksum_ext. intros k' Hk'. assert (Sy : M k' k = M k k') by (apply inv_sym). rewrite Sy. ring.
  - apply (der_ksum n (fun k h => ksum n (fun k' => E h k * M k k' * E h k'))). intros k Hk. apply (der_ksum n (fun k' h => E h k * M k k' * E h k')). intros k' Hk'.
    destruct (H k Hk) as (E1 & D1). destruct (H k' Hk') as (E2 & D2).
    eapply der_eq'; [|exact (derivable_pt_lim_mult _ _ 0 _ _ (derivable_pt_lim_mult _ _ 0 _ _ D1 (derivable_pt_lim_const (M k k') 0)) D2)]. unfold mult_fct, fct_cte. rewrite E1, E2. ring.
Qed.
Lemma real_der : forall l s x tas, Forall (along_ok l s x) tas -> derivable_pt_lim (real_cost tas) 0 (2 * lsum (map fst tas) (fun t => wprod t (lt_err t) (lin_change l s t x))).
Proof.
  intros l s x tas F. rewrite Forall_forall in F. rewrite lsum_map. apply (der_eq' _ _ (lsum tas (fun ta => 2 * wprod (fst ta) (lt_err (fst ta)) (lin_change l s (fst ta) x)))); [exact (@lsum_mul_l R RRing _ tas 2 _)|].
  apply (der_lsum _ tas (fun ta h => al_rho (snd ta) (squared (fst ta) (al_E (snd ta) h)))). intros ta Hta. destruct (F ta Hta) as (H1 & H2).
  eapply der_eq'; [|exact (derivable_pt_lim_comp (fun h => squared (fst ta) (al_E (snd ta) h)) (al_rho (snd ta)) 0 _ _ (squared_der (fst ta) (al_E (snd ta)) (lin_change l s (fst ta) x) H1) H2)].
  unfold wprod. ring.
Qed.
Lemma neg_descends : forall f a, derivable_pt_lim f 0 a -> a < 0 -> exists delta, 0 < delta /\ forall h, 0 < h < delta -> f h < f 0.
Proof.
  intros f a D Ha. destruct (D (- a / 2) ltac:(lra)) as (dl & Hd). exists dl. split; [apply cond_pos|]. intros h (H1 & H2). specialize (Hd h ltac:(lra) ltac:(rewrite Rabs_right; lra)).
  rewrite Rplus_0_l in Hd. apply Rabs_def2 in Hd. destruct Hd as (Hd & _). assert (Q : (f h - f 0) / h < 0) by lra.
  assert (E : f h - f 0 = (f h - f 0) / h * h) by (field; lra). assert ((f h - f 0) / h * h < 0) by nra. lra.
Qed.
Lemma ne_best : forall l s ts c x, layout_ok l -> Forall (lterm_ok l) ts -> normal_equations (jrows ts) (total l) (Js l s ts) (e_of ts) c x -> best l s ts c x.
Proof.
  intros l s ts c x Lo F NE. split; [exact (best_min l s ts c x Lo F NE)|]. split; [exact (best_only l s ts c x Lo F NE)|]. intros NS. split; [exact (best_less l s ts c x Lo F NE NS)|].
  intros tas E A. assert (D := real_der l s x tas A). rewrite E in D. apply (neg_descends _ _ D).
  rewrite (grad_rows l s ts Lo F). assert (Z := ne_all _ _ _ _ _ _ NE x). assert (M := moves l s ts c x Lo F NE NS). lra.
Qed.
Lemma Js_one : forall l ts r q, layout_ok l -> (q < total l)%nat -> Js l (fun _ => 1) ts r q = J_of l ts r q.
Proof. intros l ts r q Lo Hq. unfold Js. rewrite total_base in Hq. destruct (tile_exists l q (length l) Lo (le_n _) Hq) as (b & i & H1 & H2 & ->). rewrite sc_tile by auto. ring. Qed.
Lemma ne_one : forall l ts e c x, layout_ok l -> normal_equations (jrows ts) (total l) (J_of l ts) e c x -> normal_equations (jrows ts) (total l) (Js l (fun _ => 1) ts) e c x.
Proof.
  intros l ts e c x Lo. unfold normal_equations. apply solves_ext.
  - intros p q Hp Hq. unfold damped_normal. f_equal. unfold mmul, mtr. apply ksum_ext. intros r Hr. rewrite !Js_one by auto. reflexivity.
  - intros p Hp. f_equal. unfold mvmul, mtr. apply ksum_ext. intros r Hr. rewrite Js_one by auto. reflexivity.
Qed.

Lemma block_best : forall bsolve s l ts H A c use, layout_ok l -> represents H l l A -> Forall (lterm_ok l) ts -> symmetric_solver bsolve ->
  exists H' rhs b' sol, bc_build s ts H = Ok (H', rhs) /\ bc_solve bsolve (mkBc H' rhs c use) = Ok (b', sol) /\
    forall x, sol = Some x -> best l s ts (fun p => if use : bool then c p else 0) x.
Proof.
  intros bsolve s l ts H A c use Lo Rp F So. destruct (c49_block bsolve s l ts H A (Js l s ts) c use Lo Rp F (Js_scaled l s ts Lo) So) as (H' & rhs & b' & sol & E1 & E2 & N). exists H', rhs, b', sol. split; auto. split; auto.
  intros x Ex. apply ne_best; [exact Lo|exact F|]. exact (N x Ex).
Qed.
Lemma sparse_best : forall csolve l ts e0 c use m, buildable l ts m -> length c = total l -> aat_solver csolve ->
  exists x sol, sc_build l ts (eval_errors ts 0 e0) c use m = Ok x /\ sc_solve csolve x = Ok (x, sol) /\
    forall dx, sol = Some dx -> best l (fun _ => 1) ts (fun p => if use : bool then nth p c 0 else 0) dx.
Proof.
  intros csolve l ts e0 c use m B Lc So. destruct (c49_sparse_cholesky csolve l ts e0 c use m B Lc So) as (x & sol & E1 & E2 & N). exists x, sol. split; auto. split; auto. intros dx Ex. destruct B as (Lo & _ & F & _). apply ne_best; [exact Lo|exact F|]. apply ne_one; [exact Lo|]. exact (N dx Ex).
Qed.
Lemma dense_best : forall hqr garbage l ts e0 x use, layout_ok l -> Forall (lterm_ok l) ts -> dq_rows x = jrows ts -> dq_cols x = total l -> dq_use x = Some use ->
  solves_problem hqr (if use : bool then jrows ts + total l else jrows ts)%nat (total l) (above_diag use (jrows ts) (J_of l ts) (dq_c x)) (above_zero (jrows ts) (e_of ts)) ->
  exists x' dx, dq_solve hqr garbage (dq_build l ts (eval_errors ts 0 e0) x) = Ok (x', dx) /\ best l (fun _ => 1) ts (fun p => if use : bool then dq_c x p else 0) dx.
Proof.
  intros hqr garbage l ts e0 x use Lo F H1 H2 H3 H4. destruct (c49_dense hqr garbage l ts e0 x use Lo F H1 H2 H3 H4) as (x' & dx & E & N). exists x', dx. split; auto. apply ne_best; [exact Lo|exact F|]. apply ne_one; [exact Lo|].  first [exact NE|exact N].
Qed.
Lemma qr_best : forall qr colscale norm l ts e0 c use m x x' dx, buildable l ts m ->
  (forall rows cols A b y, qr rows cols A b = Some y -> least_squares rows cols A b y) ->
  (norm = true -> forall A q a, (forall r p, (r < jrows ts)%nat -> (p < total l)%nat -> A r p = J_of l ts r p) -> (q < total l)%nat -> colscale (jrows ts) A q * a = 0 -> a = 0) ->
  sq_build l ts (eval_errors ts 0 e0) c use m = Ok x -> sq_solve qr colscale norm x = Ok (x', Some dx) -> best l (fun _ => 1) ts (fun _ => 0) dx.
Proof.
  intros qr colscale norm l ts e0 c use m x x' dx B Q N E1 E2. assert (NE := c49_sparse_qr qr colscale norm l ts e0 c use m x x' dx B Q N E1 E2). destruct B as (Lo & _ & F & _). apply ne_best; [exact Lo|exact F|]. apply ne_one; [exact Lo|]. first [exact NE|exact N].
Qed.
