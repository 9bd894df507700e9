(** * Block elimination solves the damped system *)
From Coq Require Import Arith Lia List Bool Sorting.Sorted.
From Verif Require Import Lib_Ring Lib_Res SBM_Model SBM_Spec SBM_Proofs SBM_Proofs2 SBM_Proofs3 SBM_Proofs4 Schur_Model Schur_Spec Schur_Proofs.
Import ListNotations.

Section Dense.
  Context {K : Type} {R : CRing K}.
  Add Ring Kring_schur2 : (@kring K R).
  Variables (n0 n N : nat) (sz be : nat -> nat).
  Hypothesis sums : forall f, ksum N f = kadd (ksum n0 f) (ksum n (fun i => ksum (sz i) (fun t => f (be i + t)))).
  Hypothesis cover : forall p, p < N -> p < n0 \/ exists i t, i < n /\ t < sz i /\ p = be i + t.
  Hypothesis above_n0 : forall i t, i < n -> t < sz i -> n0 <= be i + t /\ be i + t < N.
  Hypothesis n0_le : n0 <= N.
  Hypothesis tiles : forall i k t u, i < n -> k < n -> t < sz i -> u < sz k -> be i + t = be k + u -> i = k /\ t = u.
  Variables (S : mat K) (d : K) (rhs : vec K) (iV : nat -> mat K).
  Hypothesis sym : symmetric N S.
  Hypothesis bdiag : forall i k t u, i < n -> k < n -> i <> k -> t < sz i -> u < sz k -> S (be i + t) (be k + u) = k0.
  Hypothesis inverse : forall i, i < n -> right_inverse (sz i) (fun t u => damped_by d S (be i + t) (be i + u)) (iV i).

  Let V i : mat K := fun t u => damped_by d S (be i + t) (be i + u).
  Definition Yd i : mat K := mmul (sz i) (fun p t => S p (be i + t)) (iV i).
  Definition Ared : mat K := fun p q => ksub (damped_by d S p q) (ksum n (fun i => ksum (sz i) (fun u => kmul (Yd i p u) (S q (be i + u))))).
  Definition bred : vec K := fun p => ksub (rhs p) (ksum n (fun i => ksum (sz i) (fun u => kmul (Yd i p u) (rhs (be i + u))))).
  Definition wd (y : vec K) i : vec K := fun u => ksum n0 (fun q => kmul (S q (be i + u)) (y q)).
  Definition back (y : vec K) i : vec K := mvmul (sz i) (iV i) (fun u => ksub (rhs (be i + u)) (wd y i u)).

  Lemma damped_sym : forall p q, p < N -> q < N -> damped_by d S p q = damped_by d S q p.
  Proof. intros p q Hp Hq. unfold damped_by. rewrite (Nat.eqb_sym q p). destruct (Nat.eqb_spec p q) as [->|]; auto. Qed.
  Lemma V_sym : forall i t u, i < n -> t < sz i -> u < sz i -> V i t u = V i u t.
  Proof. intros i t u Hi Ht Hu. apply damped_sym; apply above_n0; auto. Qed.
  (* the inverse is symmetric, hence also a left inverse *)
  Lemma left_inverse : forall i, i < n -> meq (sz i) (sz i) (mmul (sz i) (mtr (iV i)) (V i)) mid.
  Proof.
    intros i Hi t u Ht Hu. pose proof (inverse i Hi u t Hu Ht) as E. unfold mmul, mtr in *. unfold mid in *. rewrite delta_sym. rewrite <- E.
    apply ksum_ext. intros a Ha. fold (V i). rewrite (V_sym i a u) by auto. unfold V. ring.
  Qed.
  Lemma iV_sym : forall i t u, i < n -> t < sz i -> u < sz i -> iV i t u = iV i u t.
  Proof.
    intros i t u Hi Ht Hu. change (iV i u t) with (mtr (iV i) t u). transitivity (mmul (sz i) (mmul (sz i) (mtr (iV i)) (V i)) (iV i) t u).
    - etransitivity; [|symmetry; apply (mmul_ext (sz i) (sz i) (sz i) _ mid _ (iV i)); auto; [apply left_inverse; auto|apply meq_refl]].
      symmetry. apply (mmul_id_l (sz i) (sz i)); auto.
    - rewrite mmul_assoc_pt. etransitivity; [apply (mmul_ext (sz i) (sz i) (sz i) _ (mtr (iV i)) _ mid); auto; [apply meq_refl|apply inverse; auto]|]. apply (mmul_id_r (sz i) (sz i)); auto.
  Qed.
  Lemma left_inv' : forall i, i < n -> meq (sz i) (sz i) (mmul (sz i) (iV i) (V i)) mid.
  Proof.
    intros i Hi t u Ht Hu. rewrite <- (left_inverse i Hi t u Ht Hu). unfold mmul. apply ksum_ext. intros a Ha. unfold mtr. rewrite (iV_sym i a t) by auto. auto.
  Qed.

  Lemma Ared_sym : symmetric n0 Ared.
  Proof.
    intros p q Hp Hq. unfold Ared. f_equal; [apply damped_sym; lia|]. apply ksum_ext. intros i Hi.
    transitivity (ksum (sz i) (fun u => ksum (sz i) (fun t => kmul (kmul (S p (be i + t)) (iV i t u)) (S q (be i + u))))).
    { apply ksum_ext. intros u Hu. unfold Yd, mmul. rewrite <- ksum_mul_r. auto. }
    transitivity (ksum (sz i) (fun u => ksum (sz i) (fun t => kmul (kmul (S q (be i + t)) (iV i t u)) (S p (be i + u))))).
    { rewrite ksum_swap. apply ksum_ext. intros u Hu. apply ksum_ext. intros t Ht. rewrite (iV_sym i u t) by auto. ring. }
    apply ksum_ext. intros u Hu. unfold Yd, mmul. rewrite <- ksum_mul_r. auto.
  Qed.

  (* a row of the kept part *)
  Lemma row_kept : forall y p, p < n0 -> (forall i t, i < n -> t < sz i -> y (be i + t) = back y i t) ->
    mvmul N (damped_by d S) y p = kadd (mvmul n0 Ared y p) (ksum n (fun i => ksum (sz i) (fun u => kmul (Yd i p u) (rhs (be i + u))))).
  Proof.
    intros y p Hp Hy. unfold mvmul at 1. rewrite sums.
    assert (E1 : ksum n (fun i => ksum (sz i) (fun t => kmul (damped_by d S p (be i + t)) (y (be i + t)))) =
                 ksub (ksum n (fun i => ksum (sz i) (fun u => kmul (Yd i p u) (rhs (be i + u))))) (ksum n (fun i => ksum (sz i) (fun u => kmul (Yd i p u) (wd y i u))))).
    { rewrite <- ksum_sub. apply ksum_ext. intros i Hi. rewrite <- ksum_sub.
      transitivity (ksum (sz i) (fun t => ksum (sz i) (fun u => kmul (kmul (S p (be i + t)) (iV i t u)) (ksub (rhs (be i + u)) (wd y i u))))).
      - apply ksum_ext. intros t Ht. rewrite Hy by auto. unfold back, mvmul, damped_by. destruct (above_n0 i t Hi Ht). rewrite (proj2 (Nat.eqb_neq p (be i + t))) by lia. rewrite <- ksum_mul_l. apply ksum_ext. intros. ring.
      - rewrite ksum_swap. apply ksum_ext. intros u Hu. rewrite ksum_mul_r. unfold Yd, mmul. ring. }
    rewrite E1. assert (E2 : mvmul n0 Ared y p = ksub (ksum n0 (fun q => kmul (damped_by d S p q) (y q))) (ksum n (fun i => ksum (sz i) (fun u => kmul (Yd i p u) (wd y i u))))).
    { unfold mvmul, Ared. transitivity (ksub (ksum n0 (fun q => kmul (damped_by d S p q) (y q))) (ksum n0 (fun q => ksum n (fun i => ksum (sz i) (fun u => kmul (Yd i p u) (kmul (S q (be i + u)) (y q))))))).
      - rewrite <- ksum_sub. apply ksum_ext. intros q Hq. transitivity (ksub (kmul (damped_by d S p q) (y q)) (kmul (ksum n (fun i => ksum (sz i) (fun u => kmul (Yd i p u) (S q (be i + u))))) (y q))); [ring|]. f_equal.
        rewrite <- ksum_mul_r. apply ksum_ext. intros i Hi. rewrite <- ksum_mul_r. apply ksum_ext. intros. ring.
      - f_equal. rewrite ksum_swap. apply ksum_ext. intros i Hi. rewrite ksum_swap. apply ksum_ext. intros u Hu. unfold wd. rewrite <- ksum_mul_l. auto. }
    rewrite E2. ring.
  Qed.
  (* a row of an eliminated block *)
  Lemma row_eliminated : forall y i t, i < n -> t < sz i ->
    mvmul N (damped_by d S) y (be i + t) = kadd (wd y i t) (mvmul (sz i) (V i) (fun u => y (be i + u)) t).
  Proof.
    intros y i t Hi Ht. unfold mvmul at 1. rewrite sums. destruct (above_n0 i t Hi Ht) as (B1 & B2). f_equal.
    - unfold wd. apply ksum_ext. intros q Hq. unfold damped_by. rewrite (proj2 (Nat.eqb_neq (be i + t) q)) by lia. rewrite sym by lia. auto.
    - rewrite (ksum_single n i _ Hi); [unfold mvmul, V; auto|]. intros k Hk Nk. apply ksum_zero. intros u Hu. unfold damped_by. destruct (Nat.eqb_spec (be i + t) (be k + u)) as [E|_].
      + destruct (tiles i k t u Hi Hk Ht Hu E). congruence.
      + rewrite bdiag by auto. ring.
  Qed.

  Theorem elimination : forall y, solves N (damped_by d S) y rhs <-> solves n0 Ared y bred /\ (forall i t, i < n -> t < sz i -> y (be i + t) = back y i t).
  Proof.
    intros y. split.
    - intros F. assert (Y : forall i t, i < n -> t < sz i -> y (be i + t) = back y i t).
      { intros i t Hi Ht. unfold back. transitivity (mvmul (sz i) (iV i) (mvmul (sz i) (V i) (fun u => y (be i + u))) t).
        - rewrite <- mvmul_mmul. etransitivity; [|symmetry; apply (mvmul_ext (sz i) (sz i) _ mid _ (fun u => y (be i + u))); auto; [apply left_inv'; auto|apply veq_refl]]. symmetry. apply (mvmul_id (sz i) (fun u => y (be i + u))). auto.
        - apply (mvmul_ext (sz i) (sz i)); auto; [apply meq_refl|]. intros u Hu. destruct (above_n0 i u Hi Hu). rewrite <- (F (be i + u)) by lia. rewrite row_eliminated by auto. ring. }
      split; auto. intros p Hp. pose proof (F p ltac:(lia)) as E. rewrite row_kept in E by auto. unfold bred. rewrite <- E. ring.
    - intros (F & Y) p Hp. destruct (cover p Hp) as [Hq|(i & t & Hi & Ht & ->)].
      + rewrite row_kept, F by auto. unfold bred. ring.
      + rewrite row_eliminated by auto. transitivity (kadd (wd y i t) (ksub (rhs (be i + t)) (wd y i t))); [|ring]. f_equal.
        transitivity (mvmul (sz i) (V i) (back y i) t); [apply (mvmul_ext (sz i) (sz i)); auto; [apply meq_refl|intros u Hu; apply Y; auto]|].
        unfold back. rewrite <- mvmul_mmul. etransitivity; [apply (mvmul_ext (sz i) (sz i) _ mid); auto; [apply inverse; auto|apply veq_refl]|].
        apply (mvmul_id (sz i) (fun u => ksub (rhs (be i + u)) (wd y i u))). auto.
  Qed.
End Dense.

Section Full.
  Context {K : Type} {R : CRing K}.
  Add Ring Kring_schur3 : (@kring K R).
  Notation bmap := (bmap K). Notation sbm := (sbm K).
  Variable inv : nat -> mat K -> mat K.

  Lemma base_firstn : forall l m b, b <= m -> m <= length l -> base (firstn m l) b = base l b.
  Proof. intros l m [|b] H Hm; cbn [base]; auto. revert l b H Hm. induction m as [|m IH]; intros [|x l] b H Hm; cbn in *; try lia. destruct b; auto. apply IH; lia. Qed.
  Lemma bsize_firstn : forall l m b, b < m -> m <= length l -> bsize (firstn m l) b = bsize l b.
  Proof. intros l m b H Hm. unfold bsize. rewrite base_firstn by lia. pose proof (base_firstn l m (S b) ltac:(lia) Hm) as E. cbn [base] in E. rewrite E. auto. Qed.

  Lemma dsi_fold : forall l (W : bmap) (dx o : vec K) t,
    fold_left (fun (o : vec K) (e : nat * mat K) => vsub o (mvmul (bsize l (fst e)) (mtr (snd e)) (fun t => dx (base l (fst e) + t)))) W o t =
    ksub (o t) (lsum W (fun e : nat * mat K => mvmul (bsize l (fst e)) (mtr (snd e)) (fun t => dx (base l (fst e) + t)) t)).
  Proof. intros l W dx. induction W as [|e W IH]; intros o t; cbn [fold_left lsum]; [ring|]. rewrite IH. unfold vsub. ring. Qed.

  Theorem schur_ok : forall (H : sbm) l (S : mat K) (rhs : vec K) (lambda : K) m0 (lm : bool) A D n, holds_upper H l S -> symmetric (total l) S -> m0 + n = length l -> block_diagonal_from m0 l S ->
    represents A (firstn m0 l) (firstn m0 l) D -> let d := if lm then lambda else k0 in
    (forall i V, i < n -> meq (bsize l (m0 + i)) (bsize l (m0 + i)) V (diag_block l d S (m0 + i)) -> right_inverse (bsize l (m0 + i)) V (inv (bsize l (m0 + i)) V)) ->
    exists x Ar, applySchurComplement inv H rhs lambda m0 lm A n = Ok x /\ holds_upper (sc_H x) l S /\ length (sc_inv x) = n /\
      holds_upper (sc_A x) (firstn m0 l) Ar /\ symmetric (base l m0) Ar /\
      forall y, solves (total l) (damped_by d S) y rhs <->
        solves (base l m0) Ar y (sc_b x) /\
        forall i t, i < n -> t < bsize l (m0 + i) -> y (base l (m0 + i) + t) = buildDsi i (sc_H x) rhs m0 (nth i (sc_inv x) zeroM) y t.
  Proof.
    intros H l S rhs lambda m0 lm A D n (W & St & Er & Ec & X) Sy Hn Bd RA d Hinv.
    assert (Lo : layout_ok l) by (rewrite <- Er; apply W). assert (Hm : m0 <= length l) by lia. assert (Lf : length (firstn m0 l) = m0) by (rewrite firstn_length; lia).
    set (n0 := base l m0). set (sz := fun i => bsize l (m0 + i)). set (be := fun i => base l (m0 + i)).
    assert (Tn : total l = base l (length l)) by apply total_base.
    assert (Mn : n0 <= total l) by (rewrite Tn; apply base_mono; auto).
    assert (Sums : forall f : vec K, ksum (total l) f = kadd (ksum n0 f) (ksum n (fun i => ksum (sz i) (fun t => f (be i + t))))).
    { intros f. rewrite Tn. rewrite (ksum_tile l (length l)) by auto. rewrite <- Hn at 1. rewrite ksum_split. f_equal. unfold n0. rewrite (ksum_tile l m0) by auto. auto. }
    assert (Ab : forall i t, i < n -> t < sz i -> n0 <= be i + t /\ be i + t < total l).
    { intros i t Hi Ht. pose proof (base_mono l m0 (m0 + i) Lo ltac:(lia) ltac:(lia)). pose proof (base_mono l (Datatypes.S (m0 + i)) (length l) Lo ltac:(lia) ltac:(lia)) as M. rewrite base_S in M by (auto; lia). unfold sz, be, n0 in *. rewrite Tn. lia. }
    assert (Co : forall p, p < total l -> p < n0 \/ exists i t, i < n /\ t < sz i /\ p = be i + t).
    { intros p Hp. rewrite Tn in Hp. destruct (tile_exists l p (length l) Lo ltac:(lia) Hp) as (b & t & Hb & Ht & ->). destruct (Nat.lt_ge_cases b m0) as [G|G].
      - left. unfold n0. pose proof (base_mono l (Datatypes.S b) m0 Lo ltac:(lia) Hm) as M. rewrite base_S in M by auto. lia.
      - right. exists (b - m0), t. unfold sz, be. replace (m0 + (b - m0)) with b by lia. repeat split; auto; lia. }
    assert (Ti : forall i k t u, i < n -> k < n -> t < sz i -> u < sz k -> be i + t = be k + u -> i = k /\ t = u).
    { intros i k t u Hi Hk Ht Hu E. destruct (tile_unique l (m0 + i) (m0 + k) t u Lo ltac:(lia) ltac:(lia) Ht Hu E). split; auto; lia. }
    assert (Bd' : forall i k t u, i < n -> k < n -> i <> k -> t < sz i -> u < sz k -> S (be i + t) (be k + u) = k0) by (intros; apply Bd; auto; lia).
    (* the upper blocks *)
    assert (U : forall r c i j, r <= c -> c < length l -> i < bsize l r -> j < bsize l c -> blk H r c i j = S (base l r + i) (base l c + j)).
    { intros r c i j Hrc Hc Hi Hj. rewrite X by (auto; lia). rewrite (proj2 (Nat.leb_le _ _) Hrc). auto. }
    set (iV := iVof inv H lm lambda m0).
    assert (Inv : forall i, i < n -> right_inverse (sz i) (fun t u => damped_by d S (be i + t) (be i + u)) (iV i)).
    { intros i Hi. assert (M : meq (sz i) (sz i) (damped lm lambda (blk H (m0 + i) (m0 + i))) (diag_block l d S (m0 + i))).
      { intros t u Ht Hu. unfold damped, diag_block, damped_by, d. assert (Q : blk H (m0 + i) (m0 + i) t u = S (base l (m0 + i) + t) (base l (m0 + i) + u)) by (apply U; auto; lia).
        assert (Z : (base l (m0 + i) + t =? base l (m0 + i) + u) = (t =? u)) by (destruct (Nat.eqb_spec t u), (Nat.eqb_spec (base l (m0 + i) + t) (base l (m0 + i) + u)); auto; lia). rewrite Z.
        destruct lm; [unfold addDiag; rewrite Q; auto|]. rewrite Q. destruct (t =? u); ring. }
      specialize (Hinv i _ Hi M). intros t u Ht Hu. rewrite <- (Hinv t u Ht Hu). unfold iV, iVof. rewrite Er. fold (sz i). unfold mmul. apply ksum_ext. intros a Ha. f_equal. symmetry. apply M; auto. }
    (* the run *)
    assert (GH : good H l l) by (split; auto).
    assert (Zs : forall k, k < m0 -> bsize (firstn m0 l) k = bsize l k) by (intros; apply bsize_firstn; auto).
    destruct (sliceInto_ok H (fun p q => toDense H p q) 0 m0 0 m0 A (firstn m0 l) (firstn m0 l) D W (stands_toDense H W) ltac:(lia) ltac:(lia)) as (A0 & E0 & R0); auto; try (rewrite ?Er, ?Ec; lia); try (rewrite Lf; lia).
    { intros k Hk. rewrite Er. apply Zs. lia. } { intros k Hk. rewrite Ec. apply Zs. lia. }
    destruct (represents_good _ _ _ _ R0) as (G0 & S0).
    assert (B0 : forall r c i j, r < m0 -> c < m0 -> i < bsize l r -> j < bsize l c -> blk A0 r c i j = blk H r c i j).
    { intros r c i j Hr Hc Hi Hj. rewrite <- S0 by (rewrite ?Lf, ?Zs; auto). rewrite !base_firstn by lia. cbn [base plus].
      pose proof (stands_toDense H W r c i j) as Q. rewrite Er, Ec in Q. rewrite Q by (auto; lia). auto. }
    destruct (schur_loop inv H rhs lambda m0 lm A0 (firstn m0 l) l n GH ltac:(lia) Lf G0) as (x & Ex & Gx & Bx & Ix & GAx & XA & Xb).
    unfold applySchurComplement. rewrite E0. cbn [bind]. rewrite Ex. cbn [bind].
    set (Ar := Ared n sz be S d iV).
    assert (Fin : exists A1, (if lm then damp_all lambda (sc_A x) else Ok (sc_A x)) = Ok A1 /\ good A1 (firstn m0 l) (firstn m0 l) /\
                  forall r c i j, r < m0 -> blk A1 r c i j = if r =? c then damped lm lambda (blk (sc_A x) r c) i j else blk (sc_A x) r c i j).
    { unfold damped. destruct lm.
      - destruct (damp_all_ok lambda (sc_A x) _ GAx) as (A1 & E1 & G1 & X1). exists A1. split; auto. split; auto. intros. apply X1. lia.
      - exists (sc_A x). split; auto. split; auto. intros. destruct (r =? c); auto. }
    destruct Fin as (A1 & E1 & G1 & X1). rewrite E1. cbn [bind]. exists (mkSchur (sc_H x) A1 (sc_inv x) (sc_b x)), Ar. split; auto. cbn [sc_H sc_A sc_inv sc_b].
    pose proof Gx as (Wx & Sx & Erx & Ecx). split. { split; auto. split; auto. split; auto. split; auto. intros br bc i j H1 H2 H3 H4. rewrite Bx. auto. }
    split; [rewrite Ix, map_length, seq_length; auto|].
    assert (Yq : forall i r p u, i < n -> r < m0 -> p < bsize l r -> u < sz i -> mmul (bsize (s_rbi H) (m0 + i)) (blk H r (m0 + i)) (iV i) p u = Yd sz be S iV i (base l r + p) u).
    { intros i r p u Hi Hr Hp Hu. unfold Yd, mmul. rewrite Er. apply ksum_ext. intros t Ht. rewrite U by (auto; lia). auto. }
    split.
    { pose proof G1 as (W1 & S1 & Er1 & Ec1). split; auto. split; auto. split; auto. split; auto. intros br bc i j H1 H2 H3 H4. rewrite Lf in H1, H2. rewrite Zs in H3, H4 by auto. rewrite !base_firstn by lia. rewrite X1 by auto.
      assert (Q : blk (sc_A x) br bc i j = if br <=? bc then ksub (S (base l br + i) (base l bc + j)) (ksum n (fun k => ksum (sz k) (fun u => kmul (Yd sz be S iV k (base l br + i) u) (S (base l bc + j) (be k + u))))) else k0).
      { rewrite XA, B0 by auto. destruct (Nat.leb_spec br bc) as [G|G].
        - rewrite U by (auto; lia). f_equal. apply ksum_ext. intros k Hk. unfold corrA. rewrite (proj2 (Nat.leb_le _ _) G), (proj2 (Nat.ltb_lt _ _) H2). cbn [andb]. unfold mmul at 1. fold iV. rewrite Er at 1. apply ksum_ext. intros u Hu. rewrite Yq by auto. f_equal. unfold mtr. rewrite U by (auto; lia). auto.
        - rewrite X by (auto; lia). rewrite (proj2 (Nat.leb_gt _ _) G). rewrite ksum_zero; [ring|]. intros k Hk. unfold corrA. rewrite (proj2 (Nat.leb_gt _ _) G). auto. }
      unfold Ar, Ared. destruct (Nat.eqb_spec br bc) as [->|Nb].
      - rewrite Nat.leb_refl in Q. rewrite Nat.leb_refl. unfold damped_by.
        assert (Z : (base l bc + i =? base l bc + j) = (i =? j)) by (destruct (Nat.eqb_spec i j), (Nat.eqb_spec (base l bc + i) (base l bc + j)); auto; lia). rewrite Z.
        unfold damped, d. destruct lm; [unfold addDiag; destruct (i =? j); rewrite Q; ring|]. rewrite Q. destruct (i =? j); ring.
      - rewrite Q. destruct (Nat.leb_spec br bc) as [G|G]; auto. unfold damped_by. destruct (Nat.eqb_spec (base l br + i) (base l bc + j)) as [E|_]; auto. destruct (tile_unique l br bc i j Lo ltac:(lia) ltac:(lia) H3 H4 E). congruence. }
    split; [apply (Ared_sym n0 n (total l) sz be Ab Mn S d iV Sy Inv)|].
    intros y. rewrite (elimination n0 n (total l) sz be Sums Co Ab Mn Ti S d rhs iV Sy Bd' Inv y).
    assert (P1 : forall p, p < n0 -> sc_b x p = bred n sz be S rhs iV p).
    { intros p Hp. destruct (tile_exists l p m0 Lo Hm Hp) as (r & t & Hr & Ht & ->). rewrite Xb by auto. unfold bred. f_equal. apply ksum_ext. intros i Hi. unfold corrb, mvmul. fold iV. rewrite Er at 1. apply ksum_ext. intros u Hu. rewrite Yq by auto. rewrite Er. auto. }
    assert (P2 : forall i t, i < n -> t < sz i -> buildDsi i (sc_H x) rhs m0 (nth i (sc_inv x) zeroM) y t = back n0 sz be S rhs iV y i t).
    { intros i t Hi Ht. unfold buildDsi, back. rewrite Erx. fold (sz i) (be i). rewrite Ix. rewrite (nth_indep _ zeroM (iV 0)) by (rewrite map_length, seq_length; auto).
      unfold iV at 1. rewrite map_nth, seq_nth by auto. cbn [plus]. fold iV. apply (mvmul_ext (sz i) (sz i)); auto; [apply meq_refl|]. intros u Hu. rewrite dsi_fold. f_equal.
      destruct (above_sorted m0 _ (wf_keys _ Wx (m0 + i))) as (Q1 & Q2).
      rewrite (lsum_column m0 _ (fun r B => mvmul (bsize l r) (mtr B) (fun t0 => y (base l r + t0)) u)); auto; [|intros r B HIn; apply (Q2 (r, B)); auto].
      unfold wd, n0. rewrite (ksum_tile l m0) by auto. apply ksum_ext. intros r Hr. rewrite find_above by apply Wx. rewrite (proj2 (Nat.ltb_lt _ _) Hr). fold (get (sc_H x) r (m0 + i)).
      rewrite (if_blk (sc_H x) r (m0 + i) (fun B => mvmul (bsize l r) (mtr B) (fun t0 => y (base l r + t0)) u)).
      2: { unfold mvmul. apply ksum_zero. intros. unfold mtr. ring. }
      rewrite Bx. unfold mvmul. apply ksum_ext. intros a Ha. unfold mtr. rewrite U by (auto; lia). auto. }
    split; intros (F1 & F2); (split; [intros p Hp; etransitivity; [exact (F1 p Hp)|]; first [exact (P1 p Hp)|exact (eq_sym (P1 p Hp))]|]).
    - intros i t Hi Ht. rewrite P2 by auto. apply F2; auto.
    - intros i t Hi Ht. rewrite <- P2 by auto. apply F2; auto.
  Qed.
End Full.
