(** * Proofs about the block Cholesky solver *)
From Coq Require Import Arith Lia List ZArith Bool Ring Sorting.Sorted.
From Verif Require Import Lib_Ring Lib_Res CCM_Model SBM_Model SBM_Spec SBM_Proofs SBM_Proofs2 SBM_Proofs3 Schur_Model Schur_Proofs PCG_Proofs LinSolve_Model LinSolve_Spec.
From Verif Require CCM_Spec.
Import ListNotations.

Section LSP.
  Context {K : Type} {R : CRing K}.
  Add Ring Kring_lsp : (@kring K R).
  Notation lterm := (lterm K). Notation bmap := (bmap K). Notation sbm := (sbm K).

  (* the block of a design variable; missing ones are zero *)
  Definition X (b : nat) (es : bmap) : mat K := match SBM_Model.find b es with Some J => J | None => fun _ _ => k0 end.
  Lemma X_cons : forall b k J es, X b ((k, J) :: es) = if b =? k then J else X b es.
  Proof. intros. unfold X. cbn [SBM_Model.find]. destruct (b =? k); auto. Qed.
  Lemma X_below : forall b es, Forall (lt b) (map fst es) -> X b es = fun _ _ => k0.
  Proof. intros b es F. unfold X. rewrite (proj2 (SBM_Proofs.find_none es b)); auto. intros H. rewrite Forall_forall in F. specialize (F _ H). lia. Qed.
  Lemma X_map : forall (f : nat -> mat K -> mat K) b (es : bmap) p i, (forall k p i, f k (fun _ _ => k0) p i = k0) ->
    X b (map (fun e => (fst e, f (fst e) (snd e))) es) p i = f b (X b es) p i.
  Proof.
    intros f b es p i Z. induction es as [|[k J] es IH]; [unfold X; cbn; rewrite Z; auto|]. cbn [map fst snd]. rewrite !X_cons. destruct (Nat.eqb_spec b k) as [->|N]; auto.
  Qed.

  Lemma mtm_zero_l : forall n (B : mat K) i j, mmul n (mtr (fun _ _ => k0)) B i j = k0.
  Proof. intros. unfold mmul, mtr. apply ksum_zero. intros; ring. Qed.
  Lemma mtm_zero_r : forall n (B : mat K) i j, mmul n (mtr B) (fun _ _ => k0) i j = k0.
  Proof. intros. unfold mmul, mtr. apply ksum_zero. intros; ring. Qed.

  Lemma corr_ok : forall dim b1 J1 l es H, good H l l -> b1 < length l -> Forall (fun e => fst e < length l) es ->
    exists H', corr dim b1 J1 es H = Ok H' /\ good H' l l /\ forall r c i j,
      blk H' r c i j = kadd (blk H r c i j) (if r =? b1 then lsum es (fun e => if c =? fst e then mmul dim (mtr J1) (snd e) i j else k0) else k0).
  Proof.
    intros dim b1 J1 l es. induction es as [|[k J] es IH]; intros H G Hb F; cbn [corr].
    - exists H. split; auto. split; auto. intros. cbn [lsum]. destruct (r =? b1); ring.
    - inversion F as [|? ? Fk F']; subst. cbn [fst] in Fk. destruct (add_ok H l l b1 k (mmul dim (mtr J1) J) G Hb Fk) as (H1 & E1 & G1 & B1). rewrite E1. cbn [bind].
      destruct (IH H1 G1 Hb F') as (H2 & E2 & G2 & B2). exists H2. split; auto. split; auto. intros r c i j. rewrite B2, B1. cbn [lsum fst snd].
      destruct (r =? b1); destruct (c =? k); cbn [andb]; ring.
  Qed.

  Lemma hblocks_ok : forall dim e l es H rhs, layout_ok l -> good H l l -> Forall (fun e => fst e < length l) es -> StronglySorted lt (map fst es) ->
    exists H' rhs', hblocks dim e es H rhs = Ok (H', rhs') /\ good H' l l /\
      (forall r c i j, blk H' r c i j = kadd (blk H r c i j) (if r <=? c then mmul dim (mtr (X r es)) (X c es) i j else k0)) /\
      (forall b i, b < length l -> i < bsize l b -> rhs' (base l b + i) = ksub (rhs (base l b + i)) (mvmul dim (mtr (X b es)) e i)).
  Proof.
    intros dim e l es. induction es as [|[k J] es IH]; intros H rhs Lo G F S; cbn [hblocks].
    - exists H, rhs. split; auto. split; auto. split.
      + intros. unfold X; cbn [SBM_Model.find]. rewrite mtm_zero_l. destruct (r <=? c); ring.
      + intros. unfold X; cbn [SBM_Model.find]. unfold mvmul, mtr. rewrite ksum_zero by (intros; ring). ring.
    - pose proof F as F0. inversion F as [|? ? Fk F']; subst. cbn [fst] in Fk. cbn [map fst] in S. pose proof S as S0. apply StronglySorted_inv in S. destruct S as [S Fs].
      destruct (corr_ok dim k J l ((k, J) :: es) H G Fk F0) as (H1 & E1 & G1 & B1). rewrite E1. cbn [bind].
      destruct G as (W & St & Er & Ec). rewrite Er.
      destruct (IH H1 (seg_sub rhs (base l k) (bsize l k) (mvmul dim (mtr J) e)) Lo G1 F' S) as (H2 & rhs2 & E2 & G2 & B2 & V2). exists H2, rhs2. split; auto. split; auto. split.
      + intros r c i j. rewrite B2, B1. rewrite (lsum_key ((k, J) :: es) c (fun B => mmul dim (mtr J) B i j)) by auto.
        assert (Q : match SBM_Model.find c ((k, J) :: es) with Some B => mmul dim (mtr J) B i j | None => k0 end = mmul dim (mtr J) (X c ((k, J) :: es)) i j).
        { unfold X. destruct (SBM_Model.find c ((k, J) :: es)); auto. rewrite mtm_zero_r. auto. }
        rewrite Q. rewrite !X_cons. pose proof (X_below k es Fs) as Xk.
        assert (Lower : forall b, b < k -> X b es = fun _ _ => k0).
        { intros b Hb. apply X_below. eapply Forall_impl; [|exact Fs]. intros; lia. }
        destruct (Nat.eqb_spec r k) as [->|Nr].
        * rewrite Xk, mtm_zero_l. destruct (Nat.leb_spec k c) as [Hc|Hc]; [ring|].
          rewrite (proj2 (Nat.eqb_neq c k)) by lia. rewrite (Lower c Hc), mtm_zero_r. ring.
        * destruct (Nat.leb_spec r c) as [Hc|Hc]; [|ring]. destruct (Nat.eqb_spec c k) as [->|Nc]; [|ring].
          rewrite (Lower r) by lia. rewrite !mtm_zero_l. ring.
      + intros b i Hb Hi. rewrite V2 by auto. unfold seg_sub. rewrite (tile_test l k b i) by auto. rewrite X_cons, (Nat.eqb_sym b k).
        destruct (Nat.eqb_spec k b) as [->|N]; auto. rewrite (X_below b es Fs). replace (base l b + i - base l b) with i by lia. unfold mvmul at 2, mtr at 2. rewrite ksum_zero by (intros; ring). ring.
  Qed.

  (** stacking *)
  Fixpoint stackf (g : lterm -> nat -> K) (ts : list lterm) (r : nat) : K :=
    match ts with [] => k0 | t :: ts' => if r <? lt_dim t then g t r else stackf g ts' (r - lt_dim t) end.
  Lemma J_stack : forall l ts r q, J_of l ts r q = stackf (fun t r => term_jac l t r q) ts r.
  Proof. intros l ts. induction ts as [|t ts IH]; intros r q; cbn [J_of stackf]; auto. destruct (r <? lt_dim t); [reflexivity|apply IH]. Qed.
  Lemma e_stack : forall ts r, e_of ts r = stackf term_err ts r.
  Proof. intros ts. induction ts as [|t ts IH]; intros r; cbn [e_of stackf]; auto. destruct (r <? lt_dim t); [reflexivity|apply IH]. Qed.
  Lemma stack_mul : forall f g ts r, kmul (stackf f ts r) (stackf g ts r) = stackf (fun t r => kmul (f t r) (g t r)) ts r.
  Proof. intros f g ts. induction ts as [|t ts IH]; intros r; cbn [stackf]; [ring|]. destruct (r <? lt_dim t); auto. Qed.
  Lemma stack_scale : forall a f ts r, kmul (stackf f ts r) a = stackf (fun t r => kmul (f t r) a) ts r.
  Proof. intros a f ts. induction ts as [|t ts IH]; intros r; cbn [stackf]; [ring|]. destruct (r <? lt_dim t); auto. Qed.
  Lemma stack_mul2 : forall a b f g ts r, kmul (kmul (stackf f ts r) a) (kmul (stackf g ts r) b) = stackf (fun t r => kmul (kmul (f t r) a) (kmul (g t r) b)) ts r.
  Proof. intros a b f g ts. induction ts as [|t ts IH]; intros r; cbn [stackf]; [ring|]. destruct (r <? lt_dim t); auto. Qed.
  Lemma stack_sum : forall g ts, ksum (jrows ts) (stackf g ts) = lsum ts (fun t => ksum (lt_dim t) (g t)).
  Proof.
    intros g ts. induction ts as [|t ts IH]; [reflexivity|]. unfold jrows. cbn [map list_sum fold_right]. change (fold_right Nat.add 0 (map lt_dim ts)) with (jrows ts).
    rewrite ksum_split. cbn [lsum]. f_equal.
    - apply ksum_ext. intros i Hi. cbn [stackf]. rewrite (proj2 (Nat.ltb_lt _ _) Hi). auto.
    - etransitivity; [|exact IH]. apply ksum_ext. intros i Hi. cbn [stackf]. rewrite (proj2 (Nat.ltb_ge (lt_dim t + i) (lt_dim t))) by lia. f_equal. lia.
  Qed.

  (* the Jacobian at a tile *)
  Lemma raw_tile : forall l t k b i, layout_ok l -> lterm_ok l t -> b < length l -> i < bsize l b -> raw_jac l t k (base l b + i) = X b (lt_jac t) k i.
  Proof.
    intros l t k b i Lo (S & F) Hb Hi. unfold raw_jac. etransitivity.
    - apply lsum_ext with (g := fun e => if b =? fst e then (snd e : mat K) k i else k0). intros e He. rewrite Forall_forall in F. rewrite (tile_test l (fst e) b i) by auto.
      rewrite (Nat.eqb_sym b). destruct (Nat.eqb_spec (fst e) b) as [->|N]; auto. f_equal. lia.
    - rewrite (lsum_key (lt_jac t) b (fun B => B k i) S). unfold X. destruct (SBM_Model.find b (lt_jac t)); auto.
  Qed.
  Lemma hjac_tile : forall s l t p b i, layout_ok l -> lterm_ok l t -> b < length l -> i < bsize l b -> X b (hjac s t) p i = kmul (term_jac l t p (base l b + i)) (s b).
  Proof.
    intros s l t p b i Lo T Hb Hi. unfold hjac.
    etransitivity; [apply (X_map (fun k B => mmul (lt_dim t) (mscale (s k) (mtr (mscale (lt_sw t) (lt_S t)))) B))|].
    - intros. unfold mmul. apply ksum_zero. intros; ring.
    - unfold term_jac, mmul, mscale, mtr. rewrite <- ksum_mul_r. apply ksum_ext. intros k Hk. rewrite raw_tile by auto. ring.
  Qed.
  Lemma wjac_tile : forall l t p b i, layout_ok l -> lterm_ok l t -> b < length l -> i < bsize l b -> X b (wjac t) p i = term_jac l t p (base l b + i).
  Proof.
    intros l t p b i Lo T Hb Hi. unfold wjac.
    etransitivity; [apply (X_map (fun k B => mmul (lt_dim t) (mscale (lt_sw t) (mtr (lt_S t))) B))|].
    - intros. unfold mmul. apply ksum_zero. intros; ring.
    - unfold term_jac, mmul, mscale, mtr. apply ksum_ext. intros k Hk. rewrite raw_tile by auto. ring.
  Qed.
  Lemma herr_ok : forall t p, herr t p = term_err t p.
  Proof. intros. unfold herr, term_err, mvmul, mtr, mscale. reflexivity. Qed.
  Lemma werr_ok : forall t p, werr t p = term_err t p.
  Proof. intros. unfold werr, term_err, mvmul, mtr. rewrite <- ksum_mul_r. apply ksum_ext. intros; ring. Qed.
  Lemma hjac_keys : forall s t, map fst (hjac s t) = map fst (lt_jac t).
  Proof. intros. unfold hjac. rewrite map_map. reflexivity. Qed.
  Lemma hjac_range : forall s l t, lterm_ok l t -> Forall (fun e => fst e < length l) (hjac s t).
  Proof. intros s l t (_ & F). unfold hjac. rewrite Forall_map. exact F. Qed.

  Lemma build_loop : forall s l ts H rhs, layout_ok l -> good H l l -> Forall (lterm_ok l) ts ->
    exists H' rhs', fold_left (fun r t => do Hr <- r; hblocks (lt_dim t) (herr t) (hjac s t) (fst Hr) (snd Hr)) ts (Ok (H, rhs)) = Ok (H', rhs') /\ good H' l l /\
      (forall r c i j, blk H' r c i j = kadd (blk H r c i j) (if r <=? c then lsum ts (fun t => mmul (lt_dim t) (mtr (X r (hjac s t))) (X c (hjac s t)) i j) else k0)) /\
      (forall b i, b < length l -> i < bsize l b -> rhs' (base l b + i) = ksub (rhs (base l b + i)) (lsum ts (fun t => mvmul (lt_dim t) (mtr (X b (hjac s t))) (herr t) i))).
  Proof.
    intros s l ts. induction ts as [|t ts IH]; intros H rhs Lo G F.
    - exists H, rhs. cbn [fold_left lsum]. split; auto. split; auto. split; intros; [destruct (r <=? c)|]; ring.
    - inversion F as [|? ? T F']; subst. cbn [fold_left bind fst snd].
      destruct (hblocks_ok (lt_dim t) (herr t) l (hjac s t) H rhs Lo G (hjac_range s l t T)) as (H1 & r1 & E1 & G1 & B1 & V1); [rewrite hjac_keys; apply T|]. rewrite E1.
      destruct (IH H1 r1 Lo G1 F') as (H2 & r2 & E2 & G2 & B2 & V2). exists H2, r2. split; auto. split; auto. split.
      + intros. rewrite B2, B1. cbn [lsum]. destruct (r <=? c); ring.
      + intros. rewrite V2, V1 by auto. cbn [lsum]. ring.
  Qed.

  Lemma bc_build_ok : forall s l ts H A J', layout_ok l -> represents H l l A -> Forall (lterm_ok l) ts -> scaled_cols l s (J_of l ts) J' ->
    exists H' rhs, bc_build s ts H = Ok (H', rhs) /\ holds_upper H' l (mmul (jrows ts) (mtr J') J') /\
      (forall p, p < total l -> rhs p = kopp (mvmul (jrows ts) (mtr J') (e_of ts) p)).
  Proof.
    intros s l ts H A J' Lo Rp F Sc. unfold bc_build. destruct (clear_ok H l l A false Rp) as (Rc & _). destruct (represents_good _ _ _ _ Rc) as (G & Z).
    destruct (build_loop s l ts (clear false H) (fun _ => k0) Lo G F) as (H' & rhs & E & G' & B & V). exists H', rhs. split; auto. split.
    - destruct G' as (W & St & Er & Ec). split; auto. split; auto. split; auto. split; auto. intros br bc i j H1 H2 H3 H4. rewrite B, <- Z by auto.
      destruct (br <=? bc); [|ring]. rewrite k_add_0_l. symmetry. unfold mmul at 1, mtr at 1.
      etransitivity; [|etransitivity; [apply (stack_sum (fun t p => kmul (X br (hjac s t) p i) (X bc (hjac s t) p j)) ts)|reflexivity]].
      apply ksum_ext. intros r Hr. rewrite !Sc by auto. rewrite !J_stack, stack_mul2.
      clear - F Lo H1 H2 H3 H4. revert r. induction ts as [|t ts IH]; intros r; cbn [stackf]; auto. inversion F; subst. destruct (r <? lt_dim t); auto.
      rewrite !(hjac_tile s l t) by auto. auto.
    - intros p Hp. rewrite total_base in Hp. destruct (tile_exists l p (length l) Lo (le_n _) Hp) as (b & i & Hb & Hi & ->). rewrite V by auto.
      transitivity (kopp (lsum ts (fun t => mvmul (lt_dim t) (mtr (X b (hjac s t))) (herr t) i))); [ring|]. f_equal.
      symmetry. etransitivity; [|etransitivity; [apply (stack_sum (fun t p => kmul (X b (hjac s t) p i) (herr t p)) ts)|reflexivity]].
      apply ksum_ext. intros r Hr. unfold mtr at 1. rewrite Sc by auto. rewrite J_stack, e_stack, stack_scale, stack_mul.
      clear - F Lo Hb Hi. revert r. induction ts as [|t ts IH]; intros r; cbn [stackf]; auto. inversion F; subst. destruct (r <? lt_dim t); auto.
      rewrite (hjac_tile s l t) by auto. reflexivity.
  Qed.

  (** the diagonal *)
  Lemma diag_loop : forall d l L H, good H l l -> (forall x, In x L -> x < length l) ->
    exists H', fold_left (fun r i => do h <- r; do B <- blockAlloc h i i; setBlock h i i (add_diag B d (base (s_rbi h) i))) L (Ok H) = Ok H' /\ good H' l l /\
      forall r c i j, blk H' r c i j = kadd (blk H r c i j) (lsum L (fun x => if (r =? x) && (c =? x) then (if i =? j then d (base l x + i) else k0) else k0)).
  Proof.
    intros d l L. induction L as [|x L IH]; intros H G Hx; cbn [fold_left bind].
    - exists H. split; auto. split; auto. intros. cbn [lsum]. ring.
    - assert (Lx : x < length l) by (apply Hx; left; auto). rewrite (alloc_ok H l l x x G Lx Lx). cbn [bind].
      destruct (set_ok H l l x x (add_diag (blk H x x) d (base (s_rbi H) x)) G Lx Lx) as (H1 & E1 & G1 & B1). rewrite E1.
      destruct (IH H1 G1) as (H2 & E2 & G2 & B2); [intros; apply Hx; right; auto|]. exists H2. split; auto. split; auto. intros r c i j. rewrite B2. cbn [lsum].
      destruct G as (_ & _ & Er & _). rewrite Er in B1.
      assert (Q : blk H1 r c i j = kadd (blk H r c i j) (if (r =? x) && (c =? x) then (if i =? j then d (base l x + i) else k0) else k0)).
      { unfold blk at 1. rewrite B1. destruct (Nat.eqb_spec r x) as [->|]; cbn [andb]; [destruct (Nat.eqb_spec c x) as [->|]; cbn [andb]|].
        - unfold add_diag. destruct (i =? j); ring.
        - fold (blk H x c). ring.
        - fold (blk H r c). ring. }
      rewrite Q. ring.
  Qed.
  Lemma on_diagonal_ok : forall d l H, good H l l -> exists H', on_diagonal d H = Ok H' /\ good H' l l /\
    forall r c i j, r < length l -> blk H' r c i j = kadd (blk H r c i j) (if (r =? c) && (i =? j) then d (base l r + i) else k0).
  Proof.
    intros d l H G. unfold on_diagonal. pose proof G as (_ & _ & Er & _). rewrite Er.
    destruct (diag_loop d l (seq 0 (length l)) H G) as (H' & E & G' & B); [intros x Hx; apply in_seq in Hx; lia|]. exists H'. split; auto. split; auto.
    intros r c i j Hr. rewrite B, lsum_seq. f_equal.
    rewrite (ksum_single (length l) r) by (auto; intros k _ Nk; rewrite (proj2 (Nat.eqb_neq r k)); auto). rewrite Nat.eqb_refl. cbn [andb]. rewrite (Nat.eqb_sym c r).
    destruct (Nat.eqb_spec r c); cbn [andb]; auto.
  Qed.

  (** C48 for the block solver *)
  Lemma c48_block : forall bsolve l (b : bc K), layout_ok l -> good (bc_H b) l l -> exists b', bc_solve bsolve b = Ok (b', match on_diagonal (vsq (bc_c b)) (bc_H b) with Ok H1 => bsolve (if bc_use b then H1 else bc_H b) (bc_rhs b) | _ => None end) /\
    bc_rhs b' = bc_rhs b /\ bc_c b' = bc_c b /\ bc_use b' = bc_use b /\ good (bc_H b') l l /\
    (bc_use b = false -> b' = b) /\
    (bc_use b = true -> forall r c i j, r < length l -> c < length l -> i < bsize l r -> j < bsize l c ->
       blk (bc_H b') r c i j = kadd (blk (bc_H b) r c i j) (if (r =? c) && (i =? j) then ksub (kmul (bc_c b (base l r + i)) (bc_c b (base l r + i))) (bc_c b (base l r + i)) else k0)).
  Proof.
    intros bsolve l b Lo G. destruct (on_diagonal_ok (vsq (bc_c b)) l (bc_H b) G) as (H1 & E1 & G1 & B1). rewrite E1. unfold bc_solve. destruct (bc_use b) eqn:U.
    - rewrite E1. cbn [bind]. destruct (on_diagonal_ok (vneg (bc_c b)) l H1 G1) as (H2 & E2 & G2 & B2). rewrite E2. cbn [bind]. eexists. split; [reflexivity|]. cbn [bc_rhs bc_c bc_use bc_H].
      split; auto. split; auto. split; auto. split; auto. split; [discriminate|]. intros _ r c i j Hr Hc Hi Hj. rewrite B2, B1 by auto. unfold vneg, vsq.
      destruct ((r =? c) && (i =? j)); ring.
    - cbn [bind]. eexists. split; [reflexivity|]. cbn [bc_rhs bc_c bc_use bc_H]. split; auto. split; auto. split; auto. split; auto. split; [|discriminate]. intros _. destruct b; cbn in *; subst; auto.
  Qed.

  (** C49 for the block solver *)
  Lemma jtj_sym : forall n (J : mat K) p q, mmul n (mtr J) J p q = mmul n (mtr J) J q p.
  Proof. intros. unfold mmul, mtr. apply ksum_ext. intros; ring. Qed.
  Lemma delta_eqb : forall i j : nat, (delta i j : K) = if i =? j then k1 else k0.
  Proof. intros. destruct (Nat.eqb_spec i j) as [->|N]; [apply delta_refl|apply delta_neq; auto]. Qed.
  Lemma solves_ext : forall n (M M' : mat K) (x b b' : vec K), (forall p q, p < n -> q < n -> M p q = M' p q) -> (forall p, p < n -> b p = b' p) -> solves_eq n M x b -> solves_eq n M' x b'.
  Proof. intros n M M' x b b' HM Hb S p Hp. rewrite <- Hb by auto. rewrite <- S by auto. unfold mvmul. apply ksum_ext. intros q Hq. rewrite HM; auto. Qed.

  Lemma c49_block : forall bsolve s l ts H A J' c use, layout_ok l -> represents H l l A -> Forall (lterm_ok l) ts -> scaled_cols l s (J_of l ts) J' -> symmetric_solver bsolve ->
    exists H' rhs b' sol, bc_build s ts H = Ok (H', rhs) /\ bc_solve bsolve (mkBc H' rhs c use) = Ok (b', sol) /\
      forall x, sol = Some x -> normal_equations (jrows ts) (total l) J' (e_of ts) (fun p => if use : bool then c p else k0) x.
  Proof.
    intros bsolve s l ts H A J' c use Lo Rp F Sc Hs. destruct (bc_build_ok s l ts H A J' Lo Rp F Sc) as (H' & rhs & E & U & V).
    pose proof U as (W & St & Er & Ec & B). assert (G : good H' l l) by (split; auto).
    exists H', rhs. destruct (c48_block bsolve l (mkBc H' rhs c use) Lo G) as (b' & Eb & _). cbn [bc_H bc_c bc_use bc_rhs] in Eb. eexists. eexists. split; [exact E|]. split; [exact Eb|].
    intros x Hx. destruct (on_diagonal_ok (vsq c) l H' G) as (H1 & E1 & G1 & B1). rewrite E1 in Hx. unfold normal_equations, damped_normal.
    destruct use.
    - apply (solves_ext _ _ _ x rhs (fun p => kopp (mvmul (jrows ts) (mtr J') (e_of ts) p)) (fun p q _ _ => eq_refl)); auto.
      refine (Hs H1 l _ rhs x _ _ Hx).
      + destruct G1 as (W1 & S1 & R1 & C1). split; auto. split; auto. split; auto. split; auto. intros br bc i j H2 H3 H4 H5. rewrite B1, B by auto.
        rewrite delta_eqb. unfold vsq. destruct (Nat.eqb_spec br bc) as [->|N]; cbn [andb].
        * rewrite Nat.leb_refl. destruct (Nat.eqb_spec i j) as [->|N]; [rewrite Nat.eqb_refl; ring|]. rewrite (proj2 (Nat.eqb_neq (base l bc + i) (base l bc + j))) by lia. ring.
        * destruct (Nat.eqb_spec (base l br + i) (base l bc + j)) as [Q|_]; [destruct (tile_unique l br bc i j Lo H2 H3 H4 H5 Q); tauto|]. destruct (br <=? bc); ring.
      + intros p q _ _. rewrite jtj_sym, !delta_eqb, (Nat.eqb_sym q p). destruct (Nat.eqb_spec p q) as [->|]; ring.
    - assert (Sx : solves_eq (total l) (mmul (jrows ts) (mtr J') J') x rhs) by (refine (Hs H' l _ rhs x U _ Hx); intros; apply jtj_sym).
      revert Sx. apply solves_ext; auto. intros p q _ _. ring.
  Qed.

  (** C48: covariance *)
  Lemma c48_cov : forall pattern l (b : bc K), good (bc_H b) l l -> exists b' P, bc_cov pattern b = Ok (b', P) /\ good (bc_H b') l l /\
    (P = None -> bc_use b = true -> forall r c i j, r < length l -> blk (bc_H b') r c i j = kadd (blk (bc_H b) r c i j) (if (r =? c) && (i =? j) then kmul (bc_c b (base l r + i)) (bc_c b (base l r + i)) else k0)).
  Proof.
    intros pattern l b G. unfold bc_cov. destruct (on_diagonal_ok (vsq (bc_c b)) l (bc_H b) G) as (H1 & E1 & G1 & B1). destruct (bc_use b) eqn:U.
    - rewrite E1. cbn [bind]. destruct (pattern H1) as [P|].
      + destruct (on_diagonal_ok (vneg (bc_c b)) l H1 G1) as (H2 & E2 & G2 & B2). rewrite E2. cbn [bind]. eexists. eexists. split; [reflexivity|]. split; auto. discriminate.
      + eexists. eexists. split; [reflexivity|]. split; auto.
    - cbn [bind]. destruct (pattern (bc_H b)); eexists; eexists; (split; [reflexivity|]); split; auto; discriminate.
  Qed.

  (** C61 for the block solver: right when no two design variables share an error term *)
  Lemma c61_block : forall s l ts H A J' H' rhs c use, layout_ok l -> represents H l l A -> Forall (lterm_ok l) ts -> scaled_cols l s (J_of l ts) J' ->
    bc_build s ts H = Ok (H', rhs) ->
    (forall b b' i j, b < b' -> b' < length l -> i < bsize l b -> j < bsize l b' -> mmul (jrows ts) (mtr J') J' (base l b + i) (base l b' + j) = k0) ->
    bc_rhsJtJrhs (mkBc H' rhs c use) = vdot (jrows ts) (mvmul (total l) J' rhs) (mvmul (total l) J' rhs).
  Proof.
    intros s l ts H A J' H' rhs c use Lo Rp F Sc E Z. destruct (bc_build_ok s l ts H A J' Lo Rp F Sc) as (H1 & r1 & E1 & U & V). rewrite E in E1. injection E1 as <- <-.
    destruct U as (W & St & Er & Ec & B). unfold bc_rhsJtJrhs. cbn [bc_H bc_rhs]. rewrite Er.
    assert (St' : stands_for H' (mmul (jrows ts) (mtr J') J')).
    { intros br bc i j H1 H2 H3 H4. rewrite Er, Ec in *. rewrite B by auto. destruct (Nat.leb_spec br bc) as [L|L]; auto. rewrite jtj_sym. apply Z; auto. }
    etransitivity; [|symmetry; apply vdot_mvmul].
    transitivity (vdot (total l) rhs (mvmul (jrows ts) (mtr J') (mvmul (total l) J' rhs))); [|apply vdot_comm].
    apply vdot_ext; [apply veq_refl|]. intros p Hp. rewrite <- Er in Hp.
    pose proof (proj1 (proj1 (vectors_ok H' _ rhs rhs W St') p Hp)) as Q. rewrite Q, Ec. rewrite mvmul_mmul. auto.
  Qed.
End LSP.
