(** * Block linear solvers: histories of calls *)
From Coq Require Import Arith Lia List Bool Sorting.Sorted Sorting.Permutation.
From Verif Require Import Lib_Ring Lib_Res CCM_Model SBM_Model SBM_Spec SBM_Proofs SBM_Proofs2 SBM_Proofs3 SBM_Proofs4 SBM_Proofs5 Cov_Model Cov_Spec Cov_Proofs Cov_Proofs2 BSolver_Model BSolver_Spec BSolver_Proofs BSolver_Proofs2.
From Verif Require CCM_Spec.
Import ListNotations.

Section Cholmod.
  Context {K : Type} {R : CRing K}.
  Notation sbm := (sbm K).
  Variables (Sym Fac : Type) (analyze : nat -> list nat -> list nat -> option Sym) (analyze_p : list nat -> nat -> list nat -> list nat -> option Sym)
    (amd : nat -> list nat -> list nat -> option (list nat)) (factorize : Sym -> nat -> list nat -> list nat -> list K -> outcome Fac)
    (csolve : Fac -> vec K -> vec K) (change_factor : Fac -> option (list nat * list nat * list nat * list K)) (recip : K -> K) (sort : list (nat * nat) -> list (nat * nat))
    (pd : nat -> mat K -> Prop) (sym_for : Sym -> nat -> list nat -> list nat -> Prop).
  Hypothesis G : cholmod_good Sym Fac analyze analyze_p amd factorize csolve change_factor recip pd sym_for.
  Hypothesis Hsort : forall q, Permutation (sort q) q.
  Notation cst := (cst Sym).

  Definition inv (s : cst) (last : option sbm) : Prop :=
    buf_ok (c_buf _ s) /\ ms_ok (c_ms _ s) /\
    match c_sym _ s with
    | None => True
    | Some y => exists m p i x, last = Some m /\ proper m /\ fillCCS m true = Ok (p, i, x) /\ holds (c_buf _ s) (dim m) p i x /\ sym_for y (dim m) p i
    end.
  Lemma inv_new : inv (c_new Sym) None. Proof. split; [apply buf_new_ok|]. split; [left; auto|cbn; auto]. Qed.
  Lemma inv_init : forall s last last', inv s last -> inv (c_init _ s) last'. Proof. intros s last last' (H1 & H2 & _). split; auto. split; auto. cbn. auto. Qed.
  Lemma inv_order : forall s last b, inv s last -> inv (c_setOrder _ b s) last. Proof. intros s last b H. exact H. Qed.

  Lemma proper_stands : forall m : sbm, proper m -> stands_for m (toDense m). Proof. intros m (W & _). apply stands_toDense; auto. Qed.
  Lemma symbolic_ok : forall (m : sbm) s p i x, proper m -> buf_ok (c_buf _ s) -> ms_ok (c_ms _ s) -> fillCCS m true = Ok (p, i, x) -> holds (c_buf _ s) (dim m) p i x ->
    exists s' y, c_symbolic Sym analyze analyze_p amd m s = Ok s' /\ c_buf _ s' = c_buf _ s /\ c_sym _ s' = Some y /\ ms_ok (c_ms _ s') /\ sym_for y (dim m) p i.
  Proof.
    intros m s p i x Pr B M E H. destruct (upper_filled m _ Pr (proper_stands m Pr)) as (p' & i' & x' & E' & _ & C & _). rewrite E in E'. injection E' as <- <- <-.
    assert (UP : @upper_pattern K R (dim m) p i) by (exists x; eexists; exact C). destruct (proper_dim m Pr) as (D0 & D1). pose proof H as (Hn & _). pose proof Pr as (W & Sq & _). unfold c_symbolic. destruct (holds_view _ _ _ _ _ H) as (_ & V). destruct (c_order _ s).
    - destruct (fillStructure_ok m (c_ms _ s) W M) as (ms & Ap & Aii & E1 & E2 & E3 & E4 & E5 & E6). rewrite E1. cbn [bind]. rewrite E4. cbn [bind]. rewrite E5. cbn [bind]. rewrite E3.
      destruct (g_amd _ _ _ _ _ _ _ _ _ _ _ G _ _ _ E6) as (P & EP & LP). rewrite EP. pose proof LP as (L1 & _).
      destruct (store_ok P (grow (length (s_cbi m)) (c_bperm _ s))) as (bp & Eb & _ & Gb); [rewrite L1; apply grow_length|]. rewrite Eb. cbn [bind]. rewrite L1 in Gb. rewrite Gb. cbn [bind].
      destruct (blow_up_perm _ m P W LP) as (q & Eq & Lq). rewrite Eq. cbn [bind]. rewrite D1 in Lq. pose proof Lq as (L2 & _). rewrite Hn.
      destruct (store_ok q (grow (dim m) (c_sperm _ s))) as (sp & Es & _ & Gs); [rewrite L2; apply grow_length|]. rewrite Es. cbn [bind]. rewrite L2 in Gs. rewrite Gs. cbn [bind]. rewrite V. cbn [bind fst snd].
      destruct (g_analyze_p _ _ _ _ _ _ _ _ _ _ _ G q (dim m) p i Lq UP) as (y & Ey & Hy). exists (mkC Sym (c_buf _ s) (analyze_p q (dim m) p i) true ms sp bp), y. split; auto.
    - rewrite V. cbn [bind fst snd]. rewrite Hn. destruct (g_analyze _ _ _ _ _ _ _ _ _ _ _ G (dim m) p i UP) as (y & Ey & Hy). eexists. exists y. split; [reflexivity|]. cbn. auto.
  Qed.
  Lemma prepare_ok : forall (m : sbm) s last, inv s last -> proper m -> unchanged last m -> exists s' y p i x,
    c_prepare Sym analyze analyze_p amd m s = Ok (s', y) /\ inv s' (Some m) /\ fillCCS m true = Ok (p, i, x) /\ holds (c_buf _ s') (dim m) p i x /\ sym_for y (dim m) p i.
  Proof.
    intros m s last (B & M & S) Pr U. destruct (proper_dim m Pr) as (D0 & D1). destruct (upper_filled m _ Pr (proper_stands m Pr)) as (p & i & x & E & V & C & L). destruct (ccs_sizes _ _ _ _ _ C) as (Z1 & Z2 & Z3).
    unfold c_prepare. destruct (c_sym _ s) as [y|] eqn:Y.
    - destruct S as (m0 & p0 & i0 & x0 & -> & Pr0 & E0 & H0 & Hy). cbn [unchanged] in U. destruct (same_upper m0 m p0 i0 x0 Pr0 Pr U E0) as (v' & E1 & L1). rewrite E in E1. injection E1 as -> -> ->.
      assert (Dm : dim m0 = dim m) by (unfold dim; destruct U as (-> & _); auto). rewrite Dm in *.
      destruct (fill_new_values (fun m => fillCCS m true) (fun m => fillCCS_values m true) nonZeros m (c_buf _ s) (dim m) p0 i0 x0 v' B H0) as (b & Eb & Bb & Hb); auto.
      rewrite Eb. cbn [bind c_sym]. exists (mkC Sym b (Some y) (c_order _ s) (c_ms _ s) (c_sperm _ s) (c_bperm _ s)), y, p0, i0, v'. split; auto. split; [|auto].
      split; auto. split; auto. cbn [c_sym c_buf]. exists m, p0, i0, v'. auto.
    - destruct (fill_whole (fun m => fillCCS m true) (fun m => fillCCS_values m true) nonZeros m (c_buf _ s) (dim m) p i x B D0 D1) as (b & Eb & Bb & Hb); auto.
      rewrite Eb. cbn [bind c_sym]. destruct (symbolic_ok m (mkC Sym b None (c_order _ s) (c_ms _ s) (c_sperm _ s) (c_bperm _ s)) p i x Pr Bb M E Hb) as (s' & y & Es & F1 & F2 & F3 & F4).
      rewrite Es. cbn [bind]. rewrite F2. cbn [c_buf] in F1. exists s', y, p, i, x. split; auto. rewrite F1. split; [|auto]. split; [rewrite F1; auto|]. split; auto. rewrite F2. exists m, p, i, x. rewrite F1. auto.
  Qed.
  Notation solve' := (c_solve Sym Fac analyze analyze_p amd factorize csolve).
  Notation blocks' := (c_solveBlocks Sym Fac analyze analyze_p amd factorize change_factor recip sort).
  Notation pattern' := (c_solvePattern Sym Fac analyze analyze_p amd factorize change_factor recip sort).
  Notation step' := (c_step Sym Fac analyze analyze_p amd factorize csolve change_factor recip sort).
  Notation run' := (c_run Sym Fac analyze analyze_p amd factorize csolve change_factor recip sort).

  Lemma same_triangle : forall (m : sbm) A p i x, proper m -> stands_for m A -> fillCCS m true = Ok (p, i, x) -> is_ccs (dim m) (dim m) (triu A) (p, i, x).
  Proof. intros m A p i x Pr St E. destruct (upper_filled m A Pr St) as (p' & i' & x' & E' & _ & C & _). rewrite E in E'. injection E' as <- <- <-. auto. Qed.
  Lemma solve_ok : forall (m : sbm) x b s last, inv s last -> proper m -> unchanged last m -> exists s' ok x', solve' m x b s = Ok (s', (ok, x')) /\ inv s' (Some m) /\ promise pd (Solve m x b) (Solved ok x').
  Proof.
    intros m x b s last I Pr U. destruct (prepare_ok m s last I Pr U) as (s' & y & p & i & v & E & I' & F & H & Hy). unfold c_solve. rewrite E. cbn [bind fst snd]. destruct (holds_view _ _ _ _ _ H) as (V & _). rewrite V. cbn [bind fst snd].
    pose proof H as (Hn & Hr & _). rewrite Hn. assert (GF := fun A St => g_factorize _ _ _ _ _ _ _ _ _ _ _ G y (dim m) p i v A Hy (same_triangle m A p i v Pr St F)). rewrite Hr.
    destruct (factorize y (dim m) p i v) as [| |f].
    - exists (c_init _ s'), false, x. split; auto. split; [eapply inv_init; eauto|]. cbn [promise]. intros A St. split; [discriminate|]. intros _. split; auto. 
    - destruct (GF _ (proper_stands m Pr)).
    - exists s', true, (copy (dim m) (csolve f b) x). split; auto. split; auto. cbn [promise]. intros A St. split; [|discriminate]. intros _. split.
      + intros k Hk. destruct (GF A St) as (S & _). rewrite <- (S b k Hk). unfold mvmul. apply ksum_ext. intros j Hj. unfold copy. rewrite (proj2 (Nat.ltb_lt _ _)) by auto. auto.
      + intros k Hk. unfold copy. destruct (Nat.ltb_spec k (dim m)); auto. lia.
  Qed.
  (* the factor handed to MarginalCovarianceCholesky *)
  Lemma factor_handed : forall (m : sbm) s' y p i v, proper m -> fillCCS m true = Ok (p, i, v) -> holds (c_buf _ s') (dim m) p i v -> sym_for y (dim m) p i ->
    (c_factor Sym Fac factorize change_factor recip s' y = Ok None /\ forall A, stands_for m A -> ~ pd (dim m) (symm A)) \/
    exists Lp Li Lx q M, c_factor Sym Fac factorize change_factor recip s' y = Ok (Some M) /\ setCholeskyFactor recip (dim m) Lp Li Lx (Some q) = Ok M /\ permutation (dim m) (Some q) /\
      forall A, stands_for m A -> (exists Ai, inverse_of (dim m) (symm A) Ai) /\
        exists L, factor (dim m) Lp Li Lx L /\ (forall r, r < dim m -> kmul (recip (L r r)) (L r r) = k1) /\ factorises (dim m) (Some q) L (symm A).
  Proof.
    intros m s' y p i v Pr F H Hy. unfold c_factor. destruct (holds_view _ _ _ _ _ H) as (V & _). rewrite V. cbn [bind fst snd].
    pose proof H as (Hn & Hr & _). rewrite Hn. assert (GF := fun A St => g_factorize _ _ _ _ _ _ _ _ _ _ _ G y (dim m) p i v A Hy (same_triangle m A p i v Pr St F)).
    destruct (factorize y (dim m) p i v) as [| |f]; [left; auto|destruct (GF _ (proper_stands m Pr))|].
    destruct (change_factor f) as [[[[perm Lp] Li] Lx]|] eqn:Ec.
    - right. destruct (GF _ (proper_stands m Pr)) as (_ & GL & _ & L0 & F0 & R0 & _). destruct (invert_ok _ _ GL) as (q & Eq & Iq). rewrite Eq. cbn [bind].
      assert (SM : exists M, setCholeskyFactor recip (dim m) Lp Li Lx (Some q) = Ok M) by (eexists; apply (set_factor recip (dim m) Lp Li Lx L0 (Some q)); auto).
      destruct SM as (M & SM). exists Lp, Li, Lx, q, M. rewrite SM. cbn [bind]. split; auto. split; auto. split; [eapply inverse_is_perm; eauto|].
      intros A St. destruct (GF A St) as (_ & _ & GI & L & FL & RL & GL2). split; auto. exists L. split; auto.
    - left. split; auto. intros A St. apply (GF A St).
  Qed.
  Lemma blocks_call : forall (m : sbm) bl s last, inv s last -> proper m -> fits_int (dim m) -> match bl with None => True | Some l => length l = length (s_rbi m) end -> unchanged last m ->
    exists s' ok out, blocks' m bl s = Ok (s', (ok, out)) /\ inv s' (Some m) /\ promise pd (Blocks m bl) (GotBlocks ok out).
  Proof.
    intros m bl s last I Pr Fi Hl U. destruct (prepare_ok m s last I Pr U) as (s' & y & p & i & v & E & I' & F & H & Hy). unfold c_solveBlocks. rewrite E. cbn [bind fst snd]. pose proof Pr as (W & Sq & Ne & Po & _).
    assert (Eb : exists l, (match bl with Some l => Ok l | None => if length (s_rbi m) <=? total (s_rbi m) then Ok (repeat (fun _ : nat => k0) (length (s_rbi m))) else UB end) = Ok l /\ length l = length (s_rbi m)).
    { destruct bl as [l|]; [exists l; auto|]. rewrite (proj2 (Nat.leb_le _ _)); [eexists; split; [reflexivity|apply repeat_length]|]. rewrite total_base.
      assert (Q : forall k, k <= length (s_rbi m) -> k <= base (s_rbi m) k). { induction k as [|k IH]; intros Hk; [lia|]. rewrite base_S by (lia || apply W). specialize (Po k ltac:(lia)). specialize (IH ltac:(lia)). lia. }
      apply Q. auto. }
    destruct Eb as (l & Eb & Ll). rewrite Eb. cbn [bind]. destruct (factor_handed m s' y p i v Pr F H Hy) as [(EF & NP)|(Lp & Li & Lx & q & M & EF & SM & Pq & FA)]; rewrite EF; cbn [bind].
    - exists s', false, (Some l). split; auto. split; auto. cbn [promise]. intros A Ai St _. split; [discriminate|]. intros _. auto.
    - assert (CI : forall A Ai, stands_for m A -> inverse_of (dim m) (symm A) Ai -> exists out, computeCovariance sort M l (s_rbi m) = Ok out /\ length out = length (s_rbi m) /\
        forall b rr cc z, b < length (s_rbi m) -> rr < bsize (s_rbi m) b -> cc < bsize (s_rbi m) b -> nth b out z (rr * bsize (s_rbi m) b + cc) = Ai (base (s_rbi m) b + rr) (base (s_rbi m) b + cc)).
      { intros A Ai St IA. destruct (FA A St) as (_ & L & FL & RL & FF). destruct (covariance_inverse recip sort (dim m) Lp Li Lx L (Some q) (symm A) Ai l (s_rbi m)) as (M' & out & S1 & S2 & S3); auto; [apply W|].
        rewrite SM in S1. injection S1 as <-. exists out. auto. }
      destruct (FA _ (proper_stands m Pr)) as ((Ai0 & IA0) & _). destruct (CI _ _ (proper_stands m Pr) IA0) as (out & Eo & Lo & _). rewrite Eo. cbn [bind]. exists s', true, (Some out). split; auto. split; auto.
      cbn [promise]. intros A Ai St IA. split; [|discriminate]. intros _. exists out. split; auto. split; auto. destruct (CI A Ai St IA) as (out' & Eo' & _ & C). rewrite Eo in Eo'. injection Eo' as <-. exact C.
  Qed.
  Lemma pattern_call : forall (m : sbm) bi s last, inv s last -> proper m -> fits_int (dim m) -> (forall b, In b bi -> fst b < length (s_rbi m) /\ snd b < length (s_rbi m)) -> unchanged last m ->
    exists s' ok out, pattern' m bi s = Ok (s', (ok, out)) /\ inv s' (Some m) /\ promise pd (Pattern m bi) (GotPattern ok out).
  Proof.
    intros m bi s last I Pr Fi Hl U. destruct (prepare_ok m s last I Pr U) as (s' & y & p & i & v & E & I' & F & H & Hy). unfold c_solvePattern. rewrite E. cbn [bind fst snd]. pose proof Pr as (W & Sq & Ne & Po & _).
    destruct (factor_handed m s' y p i v Pr F H Hy) as [(EF & NP)|(Lp & Li & Lx & q & M & EF & SM & Pq & FA)]; rewrite EF; cbn [bind].
    - exists s', false, None. split; auto. split; auto. cbn [promise]. intros A Ai St _. split; [discriminate|]. intros _. auto.
    - assert (CI : forall A Ai, stands_for m A -> inverse_of (dim m) (symm A) Ai -> exists out, computeCovarianceBlocks sort M (s_rbi m) bi = Ok out /\ well_formed out /\ s_rbi out = s_rbi m /\ s_cbi out = s_rbi m /\
        (forall r c, get out r c <> None <-> In (r, c) bi) /\
        forall r c i j, In (r, c) bi -> i < bsize (s_rbi m) r -> j < bsize (s_rbi m) c -> blk out r c i j = Ai (base (s_rbi m) r + i) (base (s_rbi m) c + j)).
      { intros A Ai St IA. destruct (FA A St) as (_ & L & FL & RL & FF). destruct (blocks_inverse recip sort (dim m) Lp Li Lx L (Some q) (symm A) Ai (s_rbi m) bi) as (M' & out & S1 & S2 & S3); auto; [apply W|].
        rewrite SM in S1. injection S1 as <-. exists out. auto. }
      destruct (FA _ (proper_stands m Pr)) as ((Ai0 & IA0) & _). destruct (CI _ _ (proper_stands m Pr) IA0) as (out & Eo & _). rewrite Eo. cbn [bind]. exists s', true, (Some out). split; auto. split; auto.
      cbn [promise]. intros A Ai St IA. split; [|discriminate]. intros _. exists out. split; auto. destruct (CI A Ai St IA) as (out' & Eo' & C). rewrite Eo in Eo'. injection Eo' as <-. exact C.
  Qed.
  Theorem run_promise : forall l s last, inv s last -> obeys last l -> Forall call_ok l -> exists a, run' l s = Ok a /\ Forall2 (promise pd) l a.
  Proof.
    induction l as [|o l IH]; intros s last I O F; cbn [c_run]; [exists []; auto|]. apply Forall_cons_iff in F. destruct F as (Fo & F). destruct o as [|b|m x b|m bl|m bi]; cbn [obeys] in O; cbn [c_step bind fst snd call_ok] in *.
    - destruct (IH (c_init _ s) None) as (a & E & Pa); [eapply inv_init; eauto|auto|auto|]. rewrite E. cbn [bind]. eexists. split; [reflexivity|]. constructor; auto; exact Logic.I.
    - destruct (IH (c_setOrder _ b s) last) as (a & E & Pa); auto. rewrite E. cbn [bind]. eexists. split; [reflexivity|]. constructor; auto; exact Logic.I.
    - destruct O as (U & O). destruct (solve_ok m x b s last I Fo U) as (s' & ok & x' & E & I' & P1). rewrite E. cbn [bind fst snd]. destruct (IH s' (Some m) I' O F) as (a & E2 & Pa). rewrite E2. cbn [bind]. eexists. split; [reflexivity|]. constructor; auto.
    - destruct O as (U & O). destruct Fo as (F1 & F2 & F3). destruct (blocks_call m bl s last I F1 F2 F3 U) as (s' & ok & x' & E & I' & P1). rewrite E. cbn [bind fst snd]. destruct (IH s' (Some m) I' O F) as (a & E2 & Pa). rewrite E2. cbn [bind]. eexists. split; [reflexivity|]. constructor; auto.
    - destruct O as (U & O). destruct Fo as (F1 & F2 & F3). destruct (pattern_call m bi s last I F1 F2 F3 U) as (s' & ok & x' & E & I' & P1). rewrite E. cbn [bind fst snd]. destruct (IH s' (Some m) I' O F) as (a & E2 & Pa). rewrite E2. cbn [bind]. eexists. split; [reflexivity|]. constructor; auto.
  Qed.
End Cholmod.

Section Qr.
  Context {K : Type} {R : CRing K}.
  Notation sbm := (sbm K).
  Variables (QSym : Type) (qr_symbolic : nat -> nat -> list nat -> list nat -> option QSym) (qr_solve : option QSym -> nat -> nat -> list nat -> list nat -> list K -> vec K -> option (vec K))
    (qsym_for : QSym -> nat -> list nat -> list nat -> Prop) (reg : nat -> mat K -> Prop).
  Hypothesis G : qr_good QSym qr_symbolic qr_solve qsym_for reg.
  Definition qinv (s : qst QSym) (last : option sbm) : Prop :=
    buf_ok (q_buf _ s) /\
    match q_sym _ s with
    | None => True
    | Some y => exists m p i x, last = Some m /\ proper m /\ fillUpper m = Ok (p, i, x) /\ holds (q_buf _ s) (dim m) p i x /\ qsym_for y (dim m) p i
    end.
  Lemma qsolve_ok : forall (m : sbm) x b s last, qinv s last -> proper m -> unchanged last m -> exists s' a, q_solve QSym qr_symbolic qr_solve m x b s = Ok (s', a) /\ qinv s' (Some m) /\ q_promise reg (QSolve m x b) (Some a).
  Proof.
    intros m x b s last (B & S) Pr U. destruct (proper_dim m Pr) as (D0 & D1). assert (St0 : stands_for m (toDense m)) by (apply stands_toDense; apply Pr).
    destruct (symm_filled m _ Pr St0) as (p & i & v & E & V & C & L). destruct (ccs_sizes _ _ _ _ _ C) as (Z1 & Z2 & Z3).
    assert (HC : forall A, stands_for m A -> is_ccs (dim m) (dim m) (symm A) (p, i, v)).
    { intros A St. destruct (symm_filled m A Pr St) as (p' & i' & v' & E' & _ & C' & _). rewrite E in E'. injection E' as <- <- <-. auto. }
    assert (P : exists u, fillExt fillUpper fillUpper_values (fun m => nonZeros m * 2) m (match q_sym _ s with Some _ => true | None => false end) (q_buf _ s) = Ok u /\ buf_ok u /\ holds u (dim m) p i v /\
       (forall y, q_sym _ s = Some y -> qsym_for y (dim m) p i)).
    { destruct (q_sym _ s) as [y|] eqn:Y.
      - destruct S as (m0 & p0 & i0 & x0 & -> & Pr0 & E0 & H0 & Hy). cbn [unchanged] in U. destruct (same_symm m0 m p0 i0 x0 Pr0 Pr U E0) as (v' & E1 & L1). rewrite E in E1. injection E1 as -> -> ->.
        assert (Dm : dim m0 = dim m) by (unfold dim; destruct U as (-> & _); auto). rewrite Dm in *.
        destruct (fill_new_values fillUpper fillUpper_values (fun m => nonZeros m * 2) m (q_buf _ s) (dim m) p0 i0 x0 v' B H0) as (u & Eu & Bu & Hu); auto. exists u. split; auto. split; auto. split; auto. intros y' Ey. injection Ey as <-. auto.
      - destruct (fill_whole fillUpper fillUpper_values (fun m => nonZeros m * 2) m (q_buf _ s) (dim m) p i v B D0 D1) as (u & Eu & Bu & Hu); auto. exists u. split; auto. split; auto. split; auto. intros; discriminate. }
    destruct P as (u & Eu & Bu & Hu & Hs). unfold q_solve. rewrite Eu. cbn [bind]. destruct (holds_view _ _ _ _ _ Hu) as (Vw & _). rewrite Vw. cbn [bind fst snd]. pose proof Hu as (Hn & Hr & _). rewrite Hn, Hr.
    assert (Y : exists y, (match q_sym _ s with Some y => Some y | None => qr_symbolic (dim m) (dim m) p i end) = Some y /\ qsym_for y (dim m) p i).
    { destruct (q_sym _ s) as [y|]; [exists y; auto|]. apply (g_symbolic _ _ _ _ _ G _ _ _ _ _ (HC _ St0)). }
    destruct Y as (y & -> & Hy). assert (Inv : qinv (mkQ QSym u (Some y)) (Some m)) by (split; auto; cbn [q_sym q_buf]; exists m, p, i, v; auto).
    destruct (qr_solve (Some y) (dim m) (dim m) p i v b) as [sol|] eqn:Q.
    - eexists. exists (true, copy (dim m) sol x). split; [reflexivity|]. split; auto. cbn [q_promise]. intros A St NS. split; auto. destruct (g_qsolve _ _ _ _ _ G y (dim m) p i v (symm A) b Hy (HC A St) NS) as (sol' & Q' & Sv). rewrite Q in Q'. injection Q' as <-. split.
      + intros k Hk. rewrite <- (Sv k Hk). unfold mvmul. apply ksum_ext. intros j Hj. unfold copy. rewrite (proj2 (Nat.ltb_lt _ _)) by auto. auto.
      + intros k Hk. unfold copy. destruct (Nat.ltb_spec k (dim m)); auto. lia.
    - eexists. exists (false, x). split; [reflexivity|]. split; auto. cbn [q_promise]. intros A St NS. exfalso. destruct (g_qsolve _ _ _ _ _ G y (dim m) p i v (symm A) b Hy (HC A St) NS) as (sol' & Q' & _). congruence.
  Qed.
  Theorem q_run_promise : forall l s last, qinv s last -> q_obeys last l -> Forall qcall_ok l -> exists a, q_run QSym qr_symbolic qr_solve l s = Ok a /\ Forall2 (q_promise reg) l a.
  Proof.
    induction l as [|o l IH]; intros s last I O F; cbn [q_run]; [exists []; auto|]. apply Forall_cons_iff in F. destruct F as (Fo & F). destruct o as [|m x b]; cbn [q_obeys] in O; cbn [q_step bind fst snd qcall_ok] in *.
    - destruct (IH (q_init _ s) None) as (a & E & Pa); auto; [split; [apply I|cbn; auto]|]. rewrite E. cbn [bind]. eexists. split; [reflexivity|]. constructor; auto; exact Logic.I.
    - destruct O as (U & O). destruct (qsolve_ok m x b s last I Fo U) as (s' & r & E & I' & P1). rewrite E. cbn [bind fst snd]. destruct (IH s' (Some m) I' O F) as (a & E2 & Pa). rewrite E2. cbn [bind]. eexists. split; [reflexivity|]. constructor; auto.
  Qed.
End Qr.

Section Dense.
  Context {K : Type} {R : CRing K}.
  Notation sbm := (sbm K).
  (* the matrix without the blocks below the diagonal *)
  Definition upper_part (m : sbm) : sbm := mkSbm (s_rbi m) (s_cbi m) (map (fun i => filter (fun e => fst e <=? i) (nth i (s_cols m) [])) (seq 0 (length (s_cols m)))) (s_storage m).
  Lemma dense_filter : forall (m : sbm) cs i c D, dense_upper m i c cs D = dense_cols m i c (map (fun k => filter (fun e : nat * mat K => fst e <=? k + i) (nth k cs [])) (seq 0 (length cs))) D.
  Proof.
    intros m. induction cs as [|x cs IH]; intros i c D; cbn [dense_upper length seq map dense_cols]; auto.
    assert (E : forall D, fold_left (fun D e => if fst e <=? i then write_block D (base (s_rbi m) (fst e)) c (bsize (s_rbi m) (fst e)) (bsize (s_cbi m) i) (snd e) else D) x D =
                fold_left (fun D e => write_block D (base (s_rbi m) (fst e)) c (bsize (s_rbi m) (fst e)) (bsize (s_cbi m) i) (snd e)) (filter (fun e : nat * mat K => fst e <=? i) x) D).
    { clear. induction x as [|e x IH]; intros D; cbn; auto. destruct (fst e <=? i); cbn; auto. }
    rewrite IH. cbn [nth plus]. rewrite <- E. f_equal. rewrite <- seq_shift, map_map. apply map_ext. intros k. cbn [nth]. apply filter_ext. intros e. f_equal. lia.
  Qed.
  Lemma upper_part_col : forall (m : sbm) i, nth i (s_cols (upper_part m)) [] = filter (fun e => fst e <=? i) (nth i (s_cols m) []).
  Proof.
    intros m i. cbn [upper_part s_cols]. destruct (Nat.lt_ge_cases i (length (s_cols m))) as [H|H].
    - rewrite (nth_indep _ [] (filter (fun e : nat * mat K => fst e <=? 0) (nth 0 (s_cols m) []))) by (rewrite map_length, seq_length; auto). rewrite (map_nth (fun i => filter (fun e : nat * mat K => fst e <=? i) (nth i (s_cols m) []))), seq_nth by auto. auto.
    - rewrite nth_overflow by (rewrite map_length, seq_length; auto). rewrite (nth_overflow (s_cols m)) by auto. auto.
  Qed.
  Lemma upper_part_wf : forall m : sbm, well_formed m -> well_formed (upper_part m).
  Proof.
    intros m W. constructor; try apply W.
    - cbn [upper_part s_cols s_cbi]. rewrite map_length, seq_length. apply W.
    - intros c. rewrite upper_part_col. pose proof (wf_keys _ W c) as S. induction (nth c (s_cols m) []) as [|e l IH]; cbn [filter map]; [constructor|]. cbn [map] in S. apply StronglySorted_inv in S. destruct S as (S & F).
      destruct (fst e <=? c); auto. cbn [map]. constructor; auto. rewrite Forall_forall in *. intros x Hx. apply F. apply in_map_iff in Hx. destruct Hx as (y & <- & Hy). apply filter_In in Hy. apply in_map. apply Hy.
    - intros c r B H. rewrite upper_part_col in H. apply filter_In in H. apply (wf_range _ W c r B). apply H.
  Qed.
  Lemma upper_part_get : forall (m : sbm) r c, get (upper_part m) r c = if r <=? c then get m r c else None.
  Proof.
    intros m r c. unfold get. rewrite upper_part_col. induction (nth c (s_cols m) []) as [|[k B] l IH]; cbn [filter find fst]; [destruct (r <=? c); auto|].
    destruct (Nat.leb_spec k c); cbn [find]; destruct (Nat.eqb_spec r k) as [->|N]; auto.
    - rewrite (proj2 (Nat.leb_le _ _)) by auto. auto.
    - rewrite IH. destruct (Nat.leb_spec k c); auto. lia.
  Qed.
  Lemma dense_same_layout : forall m m' : sbm, s_rbi m = s_rbi m' -> s_cbi m = s_cbi m' -> forall cs i c D, dense_cols m i c cs D = dense_cols m' i c cs D.
  Proof. intros m m' E1 E2. induction cs as [|x cs IH]; intros i c D; cbn [dense_cols]; auto. rewrite E1, E2. apply IH. Qed.
  Lemma dense_upper_ok : forall (m : sbm) A p q, well_formed m -> s_cbi m = s_rbi m -> stands_for m A -> p <= q -> q < total (s_rbi m) -> dense_upper m 0 0 (s_cols m) (fun _ _ => k0) p q = A p q.
  Proof.
    intros m A p q W Sq St H Hq. rewrite dense_filter.
    assert (E : dense_cols m 0 0 (map (fun k => filter (fun e : nat * mat K => fst e <=? k + 0) (nth k (s_cols m) [])) (seq 0 (length (s_cols m)))) (fun _ _ => k0) = toDense (upper_part m)).
    { unfold toDense. rewrite (map_ext (fun k => filter (fun e : nat * mat K => fst e <=? k + 0) (nth k (s_cols m) [])) (fun i => filter (fun e => fst e <=? i) (nth i (s_cols m) []))).
      2: { intros k. apply filter_ext. intros e. f_equal. lia. }
      apply (dense_same_layout m (upper_part m) eq_refl eq_refl). }
    rewrite E. pose proof (stands_toDense _ (upper_part_wf m W)) as ST. 
    destruct (tile_exists (s_rbi m) p (length (s_rbi m)) (wf_rows _ W) (le_n _) ltac:(rewrite <- total_base; lia)) as (br & i & B1 & B2 & B3). destruct (tile_exists (s_rbi m) q (length (s_rbi m)) (wf_rows _ W) (le_n _) ltac:(rewrite <- total_base; lia)) as (bc & j & C1 & C2 & C3). subst p q.
    specialize (ST br bc i j). cbn [upper_part s_rbi s_cbi] in ST. rewrite Sq in ST. rewrite ST by auto. unfold blk. rewrite upper_part_get.
    assert (Le : br <= bc). { destruct (Nat.le_gt_cases br bc) as [Q|Q]; auto. pose proof (base_mono (s_rbi m) (S bc) br (wf_rows _ W) ltac:(lia) ltac:(lia)) as BM. rewrite base_S in BM by (auto; apply W). lia. }
    rewrite (proj2 (Nat.leb_le _ _) Le). symmetry. specialize (St br bc i j). rewrite Sq in St. rewrite St by auto. auto.
  Qed.
  Variables (ldlt : nat -> mat K -> vec K -> vec K) (pd : nat -> mat K -> Prop).
  Hypothesis G : ldlt_good pd ldlt.
  Hypothesis pd_ext : forall n M M', meq n n M M' -> pd n M -> pd n M'.
  Lemma dense_solve_ok : forall (m : sbm) A x b, well_formed m -> s_cbi m = s_rbi m -> stands_for m A -> pd (dim m) (symm A) ->
    fst (d_solve ldlt m x b) = true /\ solves (dim m) (symm A) b (snd (d_solve ldlt m x b)) /\ forall k, dim m <= k -> snd (d_solve ldlt m x b) k = x k.
  Proof.
    intros m A x b W Sq St P. split; auto. unfold d_solve, dim in *. cbn [snd]. rewrite Sq. set (H := dense_upper m 0 0 (s_cols m) (fun _ _ => k0)). set (M := fun p q => if p <=? q then H p q else H q p). set (n := total (s_rbi m)) in *.
    assert (EM : meq n n (symm A) M).
    { intros p q Hp Hq. unfold symm, M. destruct (Nat.leb_spec p q); symmetry; apply dense_upper_ok; auto; lia. }
    pose proof (G n M b (pd_ext _ _ _ EM P)) as S. split.
    - intros k Hk. rewrite <- (S k Hk). unfold mvmul. apply ksum_ext. intros j Hj. unfold copy. rewrite (proj2 (Nat.ltb_lt _ _)) by auto. rewrite (EM k j) by auto. auto.
    - intros k Hk. unfold copy. destruct (Nat.ltb_spec k n); auto. lia.
  Qed.
End Dense.
Theorem cholmod_sessions : forall (K : Type) (R : CRing K) Sym Fac analyze analyze_p amd factorize csolve change_factor (recip : K -> K) sort pd sym_for l,
  cholmod_good Sym Fac analyze analyze_p amd factorize csolve change_factor recip pd sym_for -> (forall q, Permutation (sort q) q) ->
  obeys None l -> Forall call_ok l ->
  exists a, c_run Sym Fac analyze analyze_p amd factorize csolve change_factor recip sort l (c_new Sym) = Ok a /\ Forall2 (promise pd) l a.
Proof. intros K R Sym Fac analyze analyze_p amd factorize csolve change_factor recip sort pd sym_for l G S O F. eapply run_promise; eauto. apply inv_new. Qed.
Theorem qr_sessions : forall (K : Type) (R : CRing K) QSym qr_symbolic qr_solve qsym_for reg l,
  qr_good QSym qr_symbolic qr_solve qsym_for reg -> q_obeys None l -> Forall qcall_ok l ->
  exists a, q_run QSym qr_symbolic qr_solve l (q_new QSym) = Ok a /\ Forall2 (@q_promise K R reg) l a.
Proof. intros K R QSym qr_symbolic qr_solve qsym_for reg l G O F. eapply q_run_promise; eauto. split; [|exact Logic.I]. apply buf_new_ok. Qed.
