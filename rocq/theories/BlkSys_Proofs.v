(** * BlockCholeskyLinearSystemSolver over a sequence of calls *)
From Coq Require Import Arith Lia List Bool Sorting.Sorted Sorting.Permutation.
From Verif Require Import Lib_Ring Lib_Res CCM_Model SBM_Model SBM_Spec SBM_Proofs SBM_Proofs2 SBM_Proofs3 Cov_Model Cov_Spec BSolver_Model BSolver_Spec BSolver_Proofs BSolver_Proofs2 BSolver_Proofs3
  LinSolve_Model LinSolve_Spec LinSolve_Proofs BlkSys_Model BlkSys_Spec.
Import ListNotations.

Lemma sorted_eq : forall a b : list nat, StronglySorted lt a -> StronglySorted lt b -> (forall x, In x a <-> In x b) -> a = b.
Proof.
  induction a as [|x a IH]; intros [|y b] Sa Sb H; auto; [exfalso; apply (proj2 (H y)); left; auto|exfalso; apply (proj1 (H x)); left; auto|].
  apply StronglySorted_inv in Sa. apply StronglySorted_inv in Sb. destruct Sa as (Sa & Fa), Sb as (Sb & Fb). rewrite Forall_forall in *.
  assert (x = y). { destruct (proj1 (H x) (or_introl eq_refl)) as [E|E]; auto. destruct (proj2 (H y) (or_introl eq_refl)) as [E2|E2]; auto. apply Fb in E. apply Fa in E2. lia. }
  subst y. f_equal. apply IH; auto. intros z. specialize (H z). split; intros Hz.
  - destruct (proj1 H (or_intror Hz)) as [->|]; auto. apply Fa in Hz. lia.
  - destruct (proj2 H (or_intror Hz)) as [->|]; auto. apply Fb in Hz. lia.
Qed.

Section P.
  Context {K : Type} {R : CRing K}.
  Add Ring KR : (@kring K R).
  Notation sbm := (sbm K). Notation bmap := (bmap K).
  Lemma same_set_pattern : forall (m m' : sbm) l, good m l l -> good m' l l -> (forall r c, get m r c <> None <-> get m' r c <> None) -> same_pattern m m'.
  Proof.
    intros m m' l (W & _ & E1 & E2) (W' & _ & E1' & E2') H. split; [congruence|]. split; [congruence|]. apply nth_ext with (d := []) (d' := []); [rewrite !map_length; pose proof (wf_len _ W) as L1; pose proof (wf_len _ W') as L2; rewrite E2 in L1; rewrite E2' in L2; exact (eq_trans L1 (eq_sym L2))|].
    intros c Hc. change (@nil nat) with (map (@fst nat (mat K)) []). rewrite !(map_nth (map (@fst nat (mat K)))). apply sorted_eq; try apply W; try apply W'. intros r. specialize (H r c). unfold get in H.
    pose proof (find_none (nth c (s_cols m) []) r) as N. pose proof (find_none (nth c (s_cols m') []) r) as N'.
    destruct (in_dec Nat.eq_dec r (map fst (nth c (s_cols m) []))) as [I|I], (in_dec Nat.eq_dec r (map fst (nth c (s_cols m') []))) as [I'|I']; try tauto; exfalso; tauto.
  Qed.

  (** ** which blocks exist *)
  Lemma set_get : forall (d : sbm) l r c B d', good d l l -> r < length l -> c < length l -> setBlock d r c B = Ok d' -> good d' l l /\ forall r' c', get d' r' c' <> None <-> get d r' c' <> None \/ (r' = r /\ c' = c).
  Proof.
    intros d l r c B d' G Hr Hc E. destruct (set_ok d l l r c B G Hr Hc) as (d2 & E2 & G2 & X). rewrite E in E2. injection E2 as <-. split; auto. intros r' c'. rewrite X.
    destruct (Nat.eqb_spec r' r) as [->|N]; destruct (Nat.eqb_spec c' c) as [->|N']; cbn [andb]; try tauto. split; [auto|discriminate].
  Qed.
  Lemma add_get : forall (d : sbm) l r c B d', good d l l -> r < length l -> c < length l -> add_to d r c B = Ok d' -> good d' l l /\ forall r' c', get d' r' c' <> None <-> get d r' c' <> None \/ (r' = r /\ c' = c).
  Proof. intros d l r c B d' G Hr Hc E. unfold add_to in E. rewrite (alloc_ok d l l) in E by auto. cbn [bind] in E. eapply set_get; eauto. Qed.
  Lemma corr_get : forall dim b1 J1 l (es : bmap) H H', good H l l -> b1 < length l -> Forall (fun e => fst e < length l) es -> corr dim b1 J1 es H = Ok H' ->
    good H' l l /\ forall r c, get H' r c <> None <-> get H r c <> None \/ (r = b1 /\ In c (map fst es)).
  Proof.
    intros dim b1 J1 l es. induction es as [|[k J] es IH]; intros H H' G Hb F E; cbn [corr] in E.
    - injection E as <-. split; auto. intros. cbn. tauto.
    - inversion F as [|? ? Fk F']; subst. cbn [fst] in Fk. destruct (add_ok H l l b1 k (mmul dim (mtr J1) J) G Hb Fk) as (H1 & E1 & _). rewrite E1 in E. cbn [bind] in E.
      destruct (add_get _ _ _ _ _ _ G Hb Fk E1) as (G1 & X1). destruct (IH H1 H' G1 Hb F' E) as (G2 & X2). split; auto. intros r c. rewrite X2, X1. cbn [map fst In]. intuition congruence.
  Qed.
  Lemma hblocks_get : forall dim e l (es : bmap) H rhs H' rhs', good H l l -> Forall (fun e => fst e < length l) es -> StronglySorted lt (map fst es) -> hblocks dim e es H rhs = Ok (H', rhs') ->
    good H' l l /\ forall r c, get H' r c <> None <-> get H r c <> None \/ (In r (map fst es) /\ In c (map fst es) /\ r <= c).
  Proof.
    intros dim e l es. induction es as [|[k J] es IH]; intros H rhs H' rhs' G F S E; cbn [hblocks] in E.
    - injection E as <- <-. split; auto. intros. cbn. tauto.
    - pose proof F as F0. inversion F as [|? ? Fk F']; subst. cbn [fst] in Fk. cbn [map fst] in S. apply StronglySorted_inv in S. destruct S as [S Fs]. rewrite Forall_forall in Fs.
      destruct (corr_ok dim k J l ((k, J) :: es) H G Fk F0) as (H1 & E1 & _). rewrite E1 in E. cbn [bind] in E. destruct (corr_get _ _ _ _ _ _ _ G Fk F0 E1) as (G1 & X1).
      destruct (IH _ _ _ _ G1 F' S E) as (G2 & X2). split; auto. intros r c. rewrite X2, X1. cbn [map fst In]. split.
      + intros [[?|(-> & [->|?])]|(? & ? & ?)]; auto; right; repeat split; auto. apply Nat.lt_le_incl. auto.
      + intros [?|([->|?] & [->|?] & ?)]; auto.
        match goal with Hr : In r _ |- _ => apply Fs in Hr; lia end.
  Qed.
  Lemma loop_get : forall s l ts H rhs H' rhs', good H l l -> Forall (lterm_ok l) ts ->
    fold_left (fun r t => do Hr <- r; hblocks (lt_dim t) (herr t) (hjac s t) (fst Hr) (snd Hr)) ts (Ok (H, rhs)) = Ok (H', rhs') -> layout_ok l ->
    good H' l l /\ forall r c, get H' r c <> None <-> get H r c <> None \/ (together ts r c /\ r <= c).
  Proof.
    intros s l ts. induction ts as [|t ts IH]; intros H rhs H' rhs' G F E Lo; cbn [fold_left] in E.
    - injection E as <- <-. split; auto. intros. unfold together. cbn. firstorder.
    - apply Forall_cons_iff in F. destruct F as (Ft & F). cbn [bind fst snd] in E.
      destruct (hblocks_ok (lt_dim t) (herr t) l (hjac s t) H rhs Lo G (hjac_range s l t Ft)) as (H1 & rhs1 & E1 & _); [rewrite hjac_keys; apply Ft|].
      rewrite E1 in E. destruct (hblocks_get _ _ l _ _ _ _ _ G (hjac_range s l t Ft) ltac:(rewrite hjac_keys; apply Ft) E1) as (G1 & X1).
      destruct (IH _ _ _ _ G1 F E Lo) as (G2 & X2). split; auto. intros r c. rewrite X2, X1, hjac_keys. unfold together. split.
      + intros [[?|(? & ? & ?)]|((t' & ? & ? & ?) & ?)]; auto; right; split; auto; [exists t|exists t']; cbn; auto.
      + intros [?|((t' & [->|?] & ? & ?) & ?)]; auto. right. split; auto. exists t'. auto.
  Qed.
  Lemma build_get : forall s l ts (H : sbm) A, layout_ok l -> represents H l l A -> Forall (lterm_ok l) ts ->
    exists H' rhs, bc_build s ts H = Ok (H', rhs) /\ good H' l l /\ (forall r c, get H' r c <> None <-> get H r c <> None \/ (together ts r c /\ r <= c)) /\
      forall J', scaled_cols l s (J_of l ts) J' -> holds_upper H' l (mmul (jrows ts) (mtr J') J') /\ (forall p, p < total l -> rhs p = kopp (mvmul (jrows ts) (mtr J') (e_of ts) p)).
  Proof.
    intros s l ts H A Lo Rp F. destruct (clear_ok H l l A false Rp) as (Rc & _ & Cg). specialize (Cg eq_refl). destruct (represents_good _ _ _ _ Rc) as (G & _).
    destruct (build_loop s l ts (clear false H) (fun _ => k0) Lo G F) as (H' & rhs & E & _). assert (Eb : bc_build s ts H = Ok (H', rhs)) by exact E. exists H', rhs. split; auto.
    destruct (loop_get s l ts _ _ _ _ G F E Lo) as (G' & X). split; auto. split.
    - intros r c. rewrite X, Cg. tauto.
    - intros J' Sc. destruct (bc_build_ok s l ts H A J' Lo Rp F Sc) as (H2 & rhs2 & E2 & U & V). rewrite Eb in E2. injection E2 as <- <-. auto.
  Qed.
  Lemma diag_get : forall d l (H : sbm), good H l l -> exists H', on_diagonal d H = Ok H' /\ good H' l l /\ forall r c, get H' r c <> None <-> get H r c <> None \/ (r = c /\ r < length l).
  Proof.
    intros d l H G. destruct (on_diagonal_ok d l H G) as (H' & E & G' & _). exists H'. split; auto. split; auto. unfold on_diagonal in E. pose proof G as (_ & _ & Er & _). rewrite Er in E.
    assert (Q : forall L h, good h l l -> (forall x, In x L -> x < length l) ->
      fold_left (fun r i => do h <- r; do B <- blockAlloc h i i; setBlock h i i (add_diag B d (base (s_rbi h) i))) L (Ok h) = Ok H' -> forall r c, get H' r c <> None <-> get h r c <> None \/ (r = c /\ In r L)).
    { induction L as [|x L IH]; intros h Gh Hx EL r c; cbn [fold_left bind] in EL; [injection EL as <-; cbn; tauto|]. assert (Lx : x < length l) by (apply Hx; left; auto).
      rewrite (alloc_ok h l l x x Gh Lx Lx) in EL. cbn [bind] in EL. destruct (set_ok h l l x x (add_diag (blk h x x) d (base (s_rbi h) x)) Gh Lx Lx) as (h1 & E1 & _). rewrite E1 in EL.
      destruct (set_get _ _ _ _ _ _ Gh Lx Lx E1) as (G1 & X1). rewrite (IH h1 G1) by (auto; intros; apply Hx; right; auto). rewrite X1. cbn [In]. intuition congruence. }
    intros r c. rewrite (Q (seq 0 (length l)) H G (fun x Hx => proj2 (proj1 (in_seq _ _ _) Hx)) E). rewrite in_seq. intuition lia.
  Qed.
  Lemma damp_upper : forall l (H H1 : sbm) S c, layout_ok l -> holds_upper H l S -> on_diagonal (vsq c) H = Ok H1 -> holds_upper H1 l (fun p q => kadd (S p q) (kmul (delta p q) (kmul (c p) (c p)))).
  Proof.
    intros l H H1 S c Lo (W & St & Er & Ec & B) E. assert (G : good H l l) by (split; auto). destruct (on_diagonal_ok (vsq c) l H G) as (H2 & E2 & G1 & B1). rewrite E in E2. injection E2 as <-.
    destruct G1 as (W1 & S1 & R1 & C1). split; auto. split; auto. split; auto. split; auto. intros br bc i j H2 H3 H4 H5. rewrite B1, B by auto.
    rewrite delta_eqb. unfold vsq. destruct (Nat.eqb_spec br bc) as [->|N]; cbn [andb].
    - rewrite Nat.leb_refl. destruct (Nat.eqb_spec i j) as [->|N]; [rewrite Nat.eqb_refl; ring|]. rewrite (proj2 (Nat.eqb_neq (base l bc + i) (base l bc + j))) by lia. ring.
    - destruct (Nat.eqb_spec (base l br + i) (base l bc + j)) as [Q|_]; [destruct (tile_unique l br bc i j Lo H2 H3 H4 H5 Q); tauto|]. destruct (br <=? bc); ring.
  Qed.
  Lemma sym_dense : forall l (H : sbm) S, layout_ok l -> holds_upper H l S -> (forall p q, S p q = S q p) -> meq (total l) (total l) (symm (toDense H)) S.
  Proof.
    intros l H S Lo (W & St & Er & Ec & B) Sy. assert (Q : forall p q, p <= q -> q < total l -> toDense H p q = S p q).
    { intros p q Hp Hq. destruct (tile_exists l p (length l) Lo (le_n _) ltac:(rewrite <- total_base; lia)) as (br & i & B1 & B2 & B3). destruct (tile_exists l q (length l) Lo (le_n _) ltac:(rewrite <- total_base; lia)) as (bc & j & C1 & C2 & C3).
      subst p q. pose proof (stands_toDense H W br bc i j) as SD. rewrite Er, Ec in SD. rewrite SD, B by auto.
      assert (Le : br <= bc). { destruct (Nat.le_gt_cases br bc) as [Q|Q]; auto. pose proof (base_mono l (Datatypes.S bc) br Lo ltac:(lia) ltac:(lia)) as BM. rewrite base_S in BM by auto. lia. }
      rewrite (proj2 (Nat.leb_le _ _) Le). auto. }
    intros p q Hp Hq. unfold symm. destruct (Nat.leb_spec p q); rewrite Q by lia; auto.
  Qed.
  Lemma damped_sym : forall rows (J : mat K) c p q, damped_normal rows J c p q = damped_normal rows J c q p.
  Proof. intros. unfold damped_normal. rewrite jtj_sym, !delta_eqb, (Nat.eqb_sym q p). destruct (Nat.eqb_spec p q) as [->|]; ring. Qed.
End P.

Section Hist.
  Context {K : Type} {R : CRing K}.
  Add Ring KR2 : (@kring K R).
  Notation sbm := (sbm K).
  Variables (Sym Fac : Type) (analyze : nat -> list nat -> list nat -> option Sym) (analyze_p : list nat -> nat -> list nat -> list nat -> option Sym)
    (amd : nat -> list nat -> list nat -> option (list nat)) (factorize : Sym -> nat -> list nat -> list nat -> list K -> outcome Fac)
    (csolve : Fac -> vec K -> vec K) (change_factor : Fac -> option (list nat * list nat * list nat * list K)) (recip : K -> K) (sort : list (nat * nat) -> list (nat * nat))
    (pd : nat -> mat K -> Prop) (sym_for : Sym -> nat -> list nat -> list nat -> Prop)
    (QSym : Type) (qr_symbolic : nat -> nat -> list nat -> list nat -> option QSym) (qr_solve : option QSym -> nat -> nat -> list nat -> list nat -> list K -> vec K -> option (vec K))
    (qsym_for : QSym -> nat -> list nat -> list nat -> Prop) (reg : nat -> mat K -> Prop) (scaling : nat -> K).
  Hypothesis G : cholmod_good Sym Fac analyze analyze_p amd factorize csolve change_factor recip pd sym_for.
  Hypothesis GQ : qr_good QSym qr_symbolic qr_solve qsym_for reg.
  Hypothesis Hsort : forall q, Permutation (sort q) q.
  Hypothesis pd_ext : forall n M M', meq n n M M' -> pd n M -> pd n M'.
  Hypothesis reg_ext : forall n M M', meq n n M M' -> reg n M -> reg n M'.
  Notation bsolver := (bsolver Sym QSym). Notation sys := (sys Sym QSym).
  Notation solveS' := (solveS Sym Fac analyze analyze_p amd factorize csolve QSym qr_symbolic qr_solve).
  Notation patternS' := (patternS Sym Fac analyze analyze_p amd factorize change_factor recip sort QSym).

  Definition sinv (spqr : bool) (s : bsolver) (last : option sbm) : Prop :=
    match s with Chol s => spqr = false /\ inv Sym sym_for s last | Qr s => spqr = true /\ qinv QSym qsym_for s last end.
  Lemma sinv_new : forall spqr, sinv spqr (newSolver Sym QSym spqr) None.
  Proof. intros [|]; cbn; split; auto; [split; [apply buf_new_ok|exact Logic.I]|apply inv_new]. Qed.
  Lemma sinv_init : forall spqr, sinv spqr (initS Sym QSym (newSolver Sym QSym spqr)) None.
  Proof. intros [|]; cbn; split; auto; [split; [apply buf_new_ok|exact Logic.I]|eapply inv_init; apply inv_new]. Qed.

  (* the blocks that exist when the solver is called *)
  Definition blocks_at (g : seen K) (t0 : list (lterm K)) (d : bool) (H : sbm) : Prop :=
    forall r c, get H r c <> None <-> (together t0 r c /\ r <= c) \/ (d = true /\ r = c /\ r < length (g_l g)).
  Definition SI (spqr : bool) (y : sys) (g : seen K) : Prop :=
    y_spqr _ _ y = spqr /\ bc_c (y_bc _ _ y) = g_c g /\ bc_use (y_bc _ _ y) = g_use g /\ (g_l g = [] -> g_first g = None /\ g_now g = None) /\
    (g_l g <> [] -> layout_ok (g_l g) /\ positive (g_l g) /\ good (bc_H (y_bc _ _ y)) (g_l g) (g_l g) /\
      match g_first g with
      | None => (forall r c, get (bc_H (y_bc _ _ y)) r c = None) /\ sinv spqr (y_solver _ _ y) None /\ g_now g = None
      | Some t0 => (exists d, (d = true -> g_use g = true) /\ blocks_at g t0 d (bc_H (y_bc _ _ y))) /\
          exists last, sinv spqr (y_solver _ _ y) last /\ match last with None => True | Some m0 => good m0 (g_l g) (g_l g) /\ blocks_at g t0 (g_use g) m0 end
      end /\
      match g_now g with
      | None => True
      | Some ts => forall J', scaled_cols (g_l g) scaling (J_of (g_l g) ts) J' -> holds_upper (bc_H (y_bc _ _ y)) (g_l g) (mmul (jrows ts) (mtr J') J') /\
          (forall p, p < total (g_l g) -> bc_rhs (y_bc _ _ y) p = kopp (mvmul (jrows ts) (mtr J') (e_of ts) p))
      end).

  (* the matrix that is handed to the solver *)
  Lemma handed : forall spqr y g t0, SI spqr y g -> g_first g = Some t0 ->
    exists H1, (if bc_use (y_bc _ _ y) then on_diagonal (vsq (bc_c (y_bc _ _ y))) (bc_H (y_bc _ _ y)) else Ok (bc_H (y_bc _ _ y))) = Ok H1 /\ good H1 (g_l g) (g_l g) /\ proper H1 /\ dim H1 = total (g_l g) /\
      blocks_at g t0 (g_use g) H1 /\ (exists last, sinv spqr (y_solver _ _ y) last /\ unchanged last H1) /\
      (forall ts J', g_now g = Some ts -> scaled_cols (g_l g) scaling (J_of (g_l g) ts) J' -> stands_for H1 (toDense H1) /\ meq (total (g_l g)) (total (g_l g)) (symm (toDense H1)) (damped g ts J') /\
         (forall p, p < total (g_l g) -> bc_rhs (y_bc _ _ y) p = kopp (mvmul (jrows ts) (mtr J') (e_of ts) p))) /\
      (g_use g = false -> H1 = bc_H (y_bc _ _ y)).
  Proof.
    intros spqr y g t0 (E1 & E2 & E3 & E0 & E) F0. assert (Ne : g_l g <> []) by (intros Q; destruct (E0 Q); congruence). destruct (E Ne) as (Lo & Po & GH & EF & EN). rewrite F0 in EF. destruct EF as ((d & Hd & Bd) & last & Il & Hl). rewrite E2, E3.
    assert (X : exists H1, (if g_use g then on_diagonal (vsq (g_c g)) (bc_H (y_bc _ _ y)) else Ok (bc_H (y_bc _ _ y))) = Ok H1 /\ good H1 (g_l g) (g_l g) /\ blocks_at g t0 (g_use g) H1 /\ (g_use g = false -> H1 = bc_H (y_bc _ _ y))).
    { destruct (g_use g) eqn:U.
      - destruct (diag_get (vsq (g_c g)) _ _ GH) as (H1 & D1 & D2 & D3). exists H1. split; auto. split; auto. split; [|discriminate]. intros r c. rewrite D3. specialize (Bd r c). destruct d; rewrite Bd; intuition discriminate.
      - eexists. split; [reflexivity|]. split; auto. split; auto. destruct d; [specialize (Hd eq_refl); discriminate|]. auto. }
    destruct X as (H1 & X1 & X2 & X3 & X4). exists H1. split; auto. split; auto. pose proof X2 as (W & St & Er & Ec).
    assert (Pr : proper H1).
    { split; auto. split; [congruence|]. rewrite Er. split; auto. split; auto. intros r c Hg. apply X3 in Hg. destruct Hg as [(_ & ?)|(_ & -> & _)]; auto. }
    split; auto. split; [unfold dim; rewrite Er; auto|]. split; auto. split.
    - exists last. split; auto. destruct last as [m0|]; [|exact Logic.I]. destruct Hl as (G0 & B0). eapply same_set_pattern; eauto. intros r c. rewrite (B0 r c), (X3 r c). tauto.
    - split; auto. intros ts J' En Sc. rewrite En in EN. destruct (EN J' Sc) as (U & V). split; [apply stands_toDense; auto|]. split; auto. unfold damped. destruct (g_use g) eqn:Us.
      + apply sym_dense; auto; [exact (damp_upper _ _ _ _ _ Lo U X1)|intros; apply damped_sym].
      + injection X1 as <-. intros p q Hp Hq. rewrite (sym_dense _ _ _ Lo U (fun p q => jtj_sym _ J' p q) p q Hp Hq). unfold damped_normal. ring.
  Qed.
  Lemma solveS_ok : forall spqr s last m x b, sinv spqr s last -> proper m -> unchanged last m -> exists s' ok x', solveS' m x b s = Ok (s', (ok, x')) /\ sinv spqr s' (Some m) /\
    (spqr = false -> promise pd (Solve m x b) (Solved ok x')) /\ (spqr = true -> q_promise reg (QSolve m x b) (Some (ok, x'))).
  Proof.
    intros spqr [s|s] last m x b I Pr U; destruct I as (-> & I); cbn [solveS].
    - destruct (solve_ok Sym Fac analyze analyze_p amd factorize csolve change_factor recip pd sym_for G m x b s last I Pr U) as (s' & ok & x' & E & I' & P). rewrite E. cbn [bind fst snd]. exists (Chol s'), ok, x'. split; auto. split; [split; auto|]. split; [auto|discriminate].
    - destruct (qsolve_ok QSym qr_symbolic qr_solve qsym_for reg GQ m x b s last I Pr U) as (s' & (ok, x') & E & I' & P). rewrite E. cbn [bind fst snd]. exists (Qr s'), ok, x'. split; auto. split; [split; auto|]. split; [discriminate|auto].
  Qed.
  Lemma patternS_ok : forall spqr s last m bi, sinv spqr s last -> proper m -> fits_int (dim m) -> (forall b, In b bi -> fst b < length (s_rbi m) /\ snd b < length (s_rbi m)) -> unchanged last m ->
    exists s' ok P, patternS' m bi s = Ok (s', (ok, P)) /\ (sinv spqr s' (Some m) \/ s' = s) /\ (spqr = false -> promise pd (Pattern m bi) (GotPattern ok P)) /\ (spqr = true -> ok = false).
  Proof.
    intros spqr [s|s] last m bi I Pr Fi Hb U; destruct I as (-> & I); cbn [patternS].
    - destruct (pattern_call Sym Fac analyze analyze_p amd factorize csolve change_factor recip sort pd sym_for G Hsort m bi s last I Pr Fi Hb U) as (s' & ok & x' & E & I' & P). rewrite E. cbn [bind fst snd]. exists (Chol s'), ok, x'. split; auto. split; [left; split; auto|]. split; [auto|discriminate].
    - exists (Qr s), false, None. split; auto. split; auto. split; [discriminate|auto].
  Qed.
  (* the blocks after the diagonal has been taken away *)
  Lemma undone : forall g t0 c H1, good H1 (g_l g) (g_l g) -> blocks_at g t0 (g_use g) H1 -> exists H2, (if g_use g then on_diagonal (vneg c) H1 else Ok H1) = Ok H2 /\ good H2 (g_l g) (g_l g) /\ blocks_at g t0 (g_use g) H2 /\ (g_use g = false -> H2 = H1).
  Proof.
    intros g t0 c H1 G1 B1. destruct (g_use g) eqn:U.
    - destruct (diag_get (vneg c) _ _ G1) as (H2 & D1 & D2 & D3). exists H2. split; auto. split; auto. split; [|discriminate]. intros r c'. rewrite D3. specialize (B1 r c'). rewrite B1. tauto.
    - exists H1. auto.
  Qed.
  Notation step' := (sys_step Sym Fac analyze analyze_p amd factorize csolve change_factor recip sort QSym qr_symbolic qr_solve scaling).
  Lemma step_ok : forall spqr y g o, SI spqr y g -> allowed o g -> exists y' a, step' o y = Ok (y', a) /\ SI spqr y' (after o g) /\ delivered scaling spqr pd reg o a g.
  Proof.
    intros spqr y g o I Al. pose proof I as (E1 & E2 & E3 & E0 & E). destruct o as [l use rhs|ts|c|dx|bi]; cbn [sys_step].
    - destruct Al as (Lo & Ne & Po). eexists. eexists. split; [reflexivity|]. split; [|exact Logic.I]. cbn [after]. unfold sys_init. split; [auto|]. cbn [y_bc y_solver bc_c bc_use bc_H g_c g_use g_l g_first g_now].
      split; auto. split; auto. split; [auto|]. intros _. destruct (@fresh_good K l l Lo Lo) as (Gf & Nf). split; auto. split; auto. split; auto. split; [|exact Logic.I]. split; auto. split; auto. rewrite E1. apply sinv_init.
    - destruct Al as (Ne & F & Sup). destruct (E Ne) as (Lo & Po & GH & EF & EN). unfold sys_build.
      assert (Rp : represents (bc_H (y_bc _ _ y)) (g_l g) (g_l g) (toDense (bc_H (y_bc _ _ y)))).
      { destruct GH as (W & St & Er & Ec). split; auto. split; auto. split; auto. split; auto. apply stands_toDense; auto. }
      destruct (build_get scaling (g_l g) ts _ _ Lo Rp F) as (H' & rhs & Eb & Gb & Bb & Cb). rewrite Eb. cbn [bind fst snd]. eexists. eexists. split; [reflexivity|]. split; [|exact Logic.I].
      cbn [after]. split; [auto|]. cbn [y_bc y_solver bc_c bc_use bc_H bc_rhs g_c g_use g_l g_first g_now]. split; auto. split; auto. split; [intros Q; congruence|]. intros _. split; auto. split; auto. split; auto. split; [|exact Cb].
      destruct (g_first g) as [t0|].
      + destruct EF as ((d & Hd & Bd) & last & Il & Hl). split; [|exists last; split; auto]. exists d. split; auto. intros r c. rewrite Bb, (Bd r c). specialize (Sup r c). tauto.
      + destruct EF as (N0 & Il & _). split; [|exists None; split; auto]. exists false. split; [discriminate|]. intros r c. rewrite Bb, N0. intuition discriminate.
    - eexists. eexists. split; [reflexivity|]. split; [|exact Logic.I]. unfold sys_cond. cbn [after]. split; [auto|]. cbn [y_bc y_solver bc_c bc_use bc_H bc_rhs g_c g_use g_l g_first g_now]. split; auto.
    - cbn [allowed] in Al. destruct (g_first g) as [t0|] eqn:F0; [|congruence]. destruct (handed spqr y g t0 I F0) as (H1 & X1 & X2 & X3 & X4 & X5 & (last & X6 & X7) & X8 & X9). unfold sys_solve. rewrite X1. cbn [bind].
      destruct (solveS_ok spqr _ last H1 dx (bc_rhs (y_bc _ _ y)) X6 X3 X7) as (s' & ok & x & S1 & S2 & S3 & S4). rewrite S1. cbn [bind fst snd]. rewrite E3.
      destruct (undone g t0 (bc_c (y_bc _ _ y)) H1 X2 X5) as (H2 & U1 & U2 & U3 & U4). rewrite U1. cbn [bind fst snd]. eexists. eexists. split; [reflexivity|]. split.
      + cbn [after]. split; [auto|]. cbn [y_bc y_solver bc_c bc_use bc_H bc_rhs g_c g_use g_l g_first g_now]. split; auto. split; auto. split; [intros Q; destruct (E0 Q); congruence|]. intros Ne. destruct (E Ne) as (Lo & Po & GH & EF & EN). split; auto. split; auto. split; auto. rewrite F0. split.
        * split; [exists (g_use g); split; auto|]. destruct ok; [exists (Some H1); split; auto|exists None; split; auto; rewrite E1; apply sinv_new].
        * destruct (g_use g) eqn:U; [exact Logic.I|]. rewrite U4, X9 by auto. exact EN.
      + cbn [delivered]. intros ts J' En Sc. destruct (X8 ts J' En Sc) as (V1 & V2 & V3). cbv zeta. assert (Q : solves (dim H1) (symm (toDense H1)) (bc_rhs (y_bc _ _ y)) x -> normal_equations (jrows ts) (total (g_l g)) J' (e_of ts) (fun p => if g_use g then g_c g p else k0) x).
        { intros Sv p Hp. rewrite <- (V3 p Hp). rewrite X4 in Sv. rewrite <- (Sv p Hp). unfold mvmul. apply ksum_ext. intros q Hq. rewrite (V2 p q Hp Hq). auto. }
        split.
        * intros Sp. specialize (S3 Sp). cbn [promise] in S3. destruct (S3 _ V1) as (P1 & P2). split; [intros Hok; apply Q; apply P1; auto|]. intros Hok Pd. destruct (P2 Hok) as (_ & P3). apply P3. rewrite X4. apply pd_ext with (M := damped g ts J'); auto. intros p q Hp Hq. symmetry. apply V2; auto.
        * intros Sp Rg. specialize (S4 Sp). cbn [q_promise] in S4. destruct (S4 _ V1) as (P1 & P2 & _); [rewrite X4; apply reg_ext with (M := damped g ts J'); auto; intros p q Hp Hq; symmetry; apply V2; auto|]. split; auto.
    - cbn [allowed] in Al. destruct Al as (Al & Fi & Hbi). destruct (g_first g) as [t0|] eqn:F0; [|congruence]. destruct (handed spqr y g t0 I F0) as (H1 & X1 & X2 & X3 & X4 & X5 & (last & X6 & X7) & X8 & X9). unfold sys_cov. rewrite X1. cbn [bind]. pose proof X2 as (W1 & St1 & Er1 & Ec1).
      destruct (patternS_ok spqr _ last H1 bi X6 X3 ltac:(rewrite X4; auto) ltac:(rewrite Er1; auto) X7) as (s' & ok & P & S1 & S2 & S3 & S4). rewrite S1. cbn [bind fst snd]. rewrite E3.
      assert (IL : exists last', sinv spqr s' last' /\ match last' with None => True | Some m0 => good m0 (g_l g) (g_l g) /\ blocks_at g t0 (g_use g) m0 end).
      { destruct S2 as [S2|S2]; [exists (Some H1); auto|]. subst s'. assert (Ne : g_l g <> []) by (intros Q; destruct (E0 Q); congruence). destruct (E Ne) as (_ & _ & _ & EF & _). destruct EF as (_ & last' & Il & Hl). exists last'. auto. }
      destruct ok.
      + destruct (undone g t0 (bc_c (y_bc _ _ y)) H1 X2 X5) as (H2 & U1 & U2 & U3 & U4). rewrite U1. cbn [bind fst snd]. eexists. eexists. split; [reflexivity|]. split.
        * cbn [after]. split; [auto|]. cbn [y_bc y_solver bc_c bc_use bc_H bc_rhs g_c g_use g_l g_first g_now]. split; auto. split; auto. split; [intros Q; destruct (E0 Q); congruence|]. intros Ne. destruct (E Ne) as (Lo & Po & GH & EF & EN). split; auto. split; auto. split; auto. rewrite F0. split.
          -- split; [exists (g_use g); split; auto|auto].
          -- destruct (g_use g) eqn:U; [exact Logic.I|]. rewrite U4, X9 by auto. exact EN.
        * cbn [delivered]. intros ts J' Ai Sp En Sc IA. destruct (X8 ts J' En Sc) as (V1 & V2 & V3). specialize (S3 Sp). cbn [promise] in S3. destruct (S3 _ Ai V1) as (P1 & _).
          { rewrite X4. intros p q Hp Hq. rewrite <- (IA p q Hp Hq). unfold mmul. apply ksum_ext. intros k Hk. rewrite (V2 p k Hp Hk). auto. }
          destruct (P1 eq_refl) as (s & -> & P2). rewrite Er1 in P2. exact P2.
      + eexists. eexists. split; [reflexivity|]. split.
        * cbn [after]. split; [auto|]. cbn [y_bc y_solver bc_c bc_use bc_H bc_rhs g_c g_use g_l g_first g_now]. split; auto. split; auto. split; [intros Q; destruct (E0 Q); congruence|]. intros Ne. destruct (E Ne) as (Lo & Po & GH & EF & EN). split; auto. split; auto. split; auto. rewrite F0. split.
          -- split; [exists (g_use g); split; auto|auto].
          -- destruct (g_use g) eqn:U; [exact Logic.I|]. rewrite X9 by auto. exact EN.
        * cbn [delivered]. intros ts J' Ai Sp En Sc IA. destruct (X8 ts J' En Sc) as (V1 & V2 & V3). specialize (S3 Sp). cbn [promise] in S3. destruct (S3 _ Ai V1) as (_ & P1).
          { rewrite X4. intros p q Hp Hq. rewrite <- (IA p q Hp Hq). unfold mmul. apply ksum_ext. intros k Hk. rewrite (V2 p k Hp Hk). auto. }
          intros Pd. apply (P1 eq_refl). rewrite X4. apply pd_ext with (M := damped g ts J'); auto. intros p q Hp Hq. symmetry. apply V2; auto.
  Qed.
  Lemma run_ok : forall spqr l y g, SI spqr y g -> disciplined l g -> exists a, sys_run Sym Fac analyze analyze_p amd factorize csolve change_factor recip sort QSym qr_symbolic qr_solve scaling l y = Ok a /\ all_delivered scaling spqr pd reg l a g.
  Proof.
    intros spqr. induction l as [|o l IH]; intros y g I D; cbn [sys_run]; [exists []; split; [auto|exact Logic.I]|]. destruct D as (Al & D). destruct (step_ok spqr y g o I Al) as (y' & a & E & I' & De). rewrite E. cbn [bind fst snd].
    destruct (IH y' (after o g) I' D) as (as' & E2 & De2). rewrite E2. cbn [bind]. eexists. split; [reflexivity|]. split; auto.
  Qed.
  Theorem session_delivers : forall spqr b l, disciplined l (nothing b) ->
    exists a, sys_run Sym Fac analyze analyze_p amd factorize csolve change_factor recip sort QSym qr_symbolic qr_solve scaling l (sys_new Sym QSym spqr b) = Ok a /\ all_delivered scaling spqr pd reg l a (nothing b).
  Proof. intros spqr b l D. apply run_ok; auto. split; [reflexivity|]. split; [auto|]. split; [auto|]. split; [auto|]. intros Ne. exfalso. apply Ne. reflexivity. Qed.
End Hist.
