(** * Marginal covariances are entries of the inverse *)
From Coq Require Import Arith Lia List ZArith Bool Sorting.Permutation.
From Verif Require Import Lib_Ring Lib_Res CCM_Model SBM_Model SBM_Spec SBM_Proofs SBM_Proofs4 Cov_Model Cov_Spec Cov_Proofs.
Import ListNotations.

Section Proofs.
  Context {K : Type} {R : CRing K}.
  Add Ring Kring_cov2 : (@kring K R).

  Lemma nodup_map : forall (p : nat -> nat) l, NoDup l -> (forall x y, In x l -> In y l -> p x = p y -> x = y) -> NoDup (map p l).
  Proof.
    intros p l N. induction N as [|x l H N IH]; intros J; cbn [map]; constructor.
    - intros Q. apply in_map_iff in Q. destruct Q as (y & E & Hy). apply J in E; [subst; auto|right; auto|left; auto].
    - apply IH. intros a b Ha Hb. apply J; right; auto.
  Qed.
  Lemma ksum_perm : forall n p (f : nat -> K), is_perm n p -> ksum n (fun k => f (p k)) = ksum n f.
  Proof.
    intros n p f P. rewrite <- !lsum_seq. rewrite <- (lsum_map _ _ p (seq 0 n) f). apply lsum_perm. apply NoDup_Permutation.
    - apply nodup_map; [apply seq_NoDup|]. intros x y Hx Hy. apply in_seq in Hx, Hy. apply P; lia.
    - apply seq_NoDup.
    - intros x. rewrite in_map_iff, in_seq. split.
      + intros (k & <- & Hk). apply in_seq in Hk. pose proof (proj1 P k). lia.
      + intros Hx. destruct (perm_surj n p P x) as (i & Hi & E); [lia|]. exists i. split; auto. apply in_seq. lia.
  Qed.
  Definition inv_pos (n : nat) (p : nat -> nat) (k : nat) : nat := match List.find (fun i => p i =? k) (seq 0 n) with Some i => i | None => 0 end.
  Lemma inv_pos_ok : forall n p, is_perm n p -> is_perm n (inv_pos n p) /\ (forall k, k < n -> p (inv_pos n p k) = k) /\ (forall i, i < n -> inv_pos n p (p i) = i).
  Proof.
    intros n p P. assert (A : forall k, k < n -> inv_pos n p k < n /\ p (inv_pos n p k) = k).
    { intros k Hk. unfold inv_pos. destruct (List.find (fun i => p i =? k) (seq 0 n)) as [i|] eqn:E.
      - apply List.find_some in E. destruct E as (E1 & E2). apply in_seq in E1. apply Nat.eqb_eq in E2. lia.
      - exfalso. destruct (perm_surj n p P k Hk) as (i & Hi & Ei). assert (Q : (p i =? k) = false) by (apply (List.find_none _ _ E i); apply in_seq; lia). rewrite Ei, Nat.eqb_refl in Q. discriminate. }
    split; [split|split].
    - intros i Hi. apply A; auto.
    - intros i j Hi Hj E. destruct (A i Hi) as (_ & <-). destruct (A j Hj) as (_ & <-). rewrite E. auto.
    - intros k Hk. apply A; auto.
    - intros i Hi. pose proof (proj1 P i Hi) as Hp. destruct (A (p i) Hp) as (B1 & B2). apply P; auto.
  Qed.
  (* an inverse of A gives an inverse of L L^T *)
  Lemma unpermute : forall n perm (L A Ai : mat K), permutation n perm -> factorises n perm L A -> meq n n (mmul n A Ai) mid ->
    exists X, inverse_of_factor n L X /\ forall i j, i < n -> j < n -> X (position perm i) (position perm j) = Ai i j.
  Proof.
    intros n perm L A Ai (_ & P) F I. destruct (inv_pos_ok n _ P) as (Q1 & Q2 & Q3). set (q := inv_pos n (position perm)) in *. exists (fun r c => Ai (q r) (q c)). split.
    - intros r c Hr Hc. pose proof (proj1 Q1 r Hr) as Hqr. pose proof (proj1 Q1 c Hc) as Hqc. transitivity (mmul n A Ai (q r) (q c)).
      + unfold mmul at 1 3. rewrite <- (ksum_perm n q (fun k => kmul (A (q r) k) (Ai k (q c))) Q1). apply ksum_ext. intros k Hk. rewrite F by (auto; apply Q1; auto). rewrite !Q2 by auto. auto.
      + rewrite I by auto. unfold mid. destruct (Nat.eq_dec r c) as [->|N]; [rewrite !delta_refl; auto|]. rewrite !delta_neq; auto. intros E. apply N. apply Q1; auto.
    - intros i j Hi Hj. rewrite !Q3 by auto. auto.
  Qed.
  Lemma perm_in_range : forall n perm, permutation n perm -> in_range n perm.
  Proof. intros n [l|] (H & P); cbn in *; auto. split; auto. intros i Hi. apply (proj1 P i Hi). Qed.

  Theorem covariance_inverse : forall (recip : K -> K) sort n Lp Li Lx L perm A Ai covBlocks l,
    factor n Lp Li Lx L -> (forall r, r < n -> kmul (recip (L r r)) (L r r) = k1) -> fits_int n -> permutation n perm -> (forall q, Permutation (sort q) q) ->
    factorises n perm L A -> meq n n (mmul n A Ai) mid -> layout_ok l -> total l <= n -> length covBlocks = length l ->
    exists M out, setCholeskyFactor recip n Lp Li Lx perm = Ok M /\ computeCovariance sort M covBlocks l = Ok out /\ length out = length l /\
      forall b rr cc z, b < length l -> rr < bsize l b -> cc < bsize l b -> nth b out z (rr * bsize l b + cc) = Ai (base l b + rr) (base l b + cc).
  Proof.
    intros recip sort n Lp Li Lx L perm A Ai covs l Fa Rec Fit Pe Srt Fc I Lo Ht Hl. destruct (unpermute n perm L A Ai Pe Fc I) as (X & IX & EX).
    destruct (covariance_ok recip sort n Lp Li Lx L X perm Fa IX Rec Fit (perm_in_range _ _ Pe) Srt covs l Lo Ht Hl) as (M & out & E1 & E2 & E3 & E4).
    exists M, out. split; auto. split; auto. split; auto. intros b rr cc z Hb H1 H2. rewrite E4 by auto.
    assert (Bn : base l b + bsize l b <= n). { rewrite <- base_S by auto. etransitivity; [|exact Ht]. rewrite total_base. apply base_mono; auto. }
    apply EX; lia.
  Qed.
  Theorem blocks_inverse : forall (recip : K -> K) sort n Lp Li Lx L perm A Ai l blockIndices,
    factor n Lp Li Lx L -> (forall r, r < n -> kmul (recip (L r r)) (L r r) = k1) -> fits_int n -> permutation n perm -> (forall q, Permutation (sort q) q) ->
    factorises n perm L A -> meq n n (mmul n A Ai) mid -> l <> [] -> layout_ok l -> total l <= n -> (forall b, In b blockIndices -> fst b < length l /\ snd b < length l) ->
    exists M s, setCholeskyFactor recip n Lp Li Lx perm = Ok M /\ computeCovarianceBlocks sort M l blockIndices = Ok s /\ well_formed s /\ s_rbi s = l /\ s_cbi s = l /\
      (forall r c, get s r c <> None <-> In (r, c) blockIndices) /\
      forall r c i j, In (r, c) blockIndices -> i < bsize l r -> j < bsize l c -> blk s r c i j = Ai (base l r + i) (base l c + j).
  Proof.
    intros recip sort n Lp Li Lx L perm A Ai l bi Fa Rec Fit Pe Srt Fc I Nl Lo Ht Hb. destruct (unpermute n perm L A Ai Pe Fc I) as (X & IX & EX).
    destruct (blocks_ok recip sort n Lp Li Lx L X perm Fa IX Rec Fit (perm_in_range _ _ Pe) Srt l bi Nl Lo Ht Hb) as (M & s & E1 & E2 & E3 & E4 & E5 & E6 & E7).
    exists M, s. repeat (split; [assumption|]). intros r c i j H Hi Hj. rewrite E7 by auto. destruct (Hb _ H) as (H1 & H2). cbn [fst snd] in *.
    assert (Bn : forall b, b < length l -> base l b + bsize l b <= n). { intros b Hb'. rewrite <- base_S by auto. etransitivity; [|exact Ht]. rewrite total_base. apply base_mono; auto. }
    pose proof (Bn r H1). pose proof (Bn c H2). apply EX; lia.
  Qed.
  Lemma too_large : forall (M : mcc K) fuel m, (Z.of_nat (m_n M) * Z.of_nat (m_n M) > int_max + 1)%Z -> computeEntry M fuel (m_n M - 1) (m_n M - 1) m = UB.
  Proof.
    intros M fuel m H. destruct fuel; auto. cbn [computeEntry]. unfold computeIndex. assert (m_n M <> 0) by (intros E; rewrite E in H; unfold int_max in H; lia).
    rewrite (proj2 (Z.leb_gt _ _)); auto. rewrite Nat2Z.inj_sub by lia. cbn [Z.of_nat]. nia.
  Qed.
End Proofs.
