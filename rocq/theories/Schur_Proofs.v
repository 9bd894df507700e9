(** * Proofs for the Schur complement *)
From Coq Require Import Arith Lia List Bool Sorting.Sorted.
From Verif Require Import Lib_Ring Lib_Res SBM_Model SBM_Spec SBM_Proofs SBM_Proofs2 SBM_Proofs3 SBM_Proofs4 Schur_Model Schur_Spec.
Import ListNotations.

Section Proofs.
  Context {K : Type} {R : CRing K}.
  Add Ring Kring_schur : (@kring K R).
  Notation bmap := (bmap K). Notation sbm := (sbm K).
  Variable inv : nat -> mat K -> mat K.

  Lemma sub_ok : forall d rbi cbi r c B, good d rbi cbi -> r < length rbi -> c < length cbi ->
    exists d', sub_from d r c B = Ok d' /\ good d' rbi cbi /\
      forall r' c' i j, blk d' r' c' i j = ksub (blk d r' c' i j) (if (r' =? r) && (c' =? c) then B i j else k0).
  Proof.
    intros d rbi cbi r c B G Hr Hc. unfold sub_from. rewrite (alloc_ok d rbi cbi r c G Hr Hc). cbn [bind].
    destruct (set_ok d rbi cbi r c (msub (blk d r c) B) G Hr Hc) as (d' & E & G' & X). exists d'. split; auto. split; auto.
    intros r' c' i j. unfold blk at 1. rewrite X. destruct (Nat.eqb_spec r' r) as [->|N]; cbn [andb]; [destruct (Nat.eqb_spec c' c) as [->|N]|].
    - unfold msub. auto.
    - fold (blk d r c'). ring.
    - fold (blk d r' c'). ring.
  Qed.
  Lemma sub_loop : forall (X : Type) (kr kc : X -> nat) (v : X -> mat K) rbi cbi (L : list X) d, good d rbi cbi -> (forall x, In x L -> kr x < length rbi /\ kc x < length cbi) ->
    exists d', fold_left (fun s x => do y <- s; sub_from y (kr x) (kc x) (v x)) L (Ok d) = Ok d' /\ good d' rbi cbi /\
      (forall r c i j, blk d' r c i j = ksub (blk d r c i j) (lsum L (fun x => if (r =? kr x) && (c =? kc x) then v x i j else k0))).
  Proof.
    intros X kr kc v rbi cbi. induction L as [|x L IH]; intros d G H.
    - exists d. split; auto. split; auto. intros. cbn [lsum]. ring.
    - destruct (H x) as (Hr & Hc); [left; auto|]. destruct (sub_ok d rbi cbi (kr x) (kc x) (v x) G Hr Hc) as (d1 & E1 & G1 & X1).
      destruct (IH d1 G1) as (d' & E & G' & X'); [intros; apply H; right; auto|]. exists d'. cbn [fold_left bind]. rewrite E1. split; auto. split; auto.
      intros r c i j. rewrite X', X1. cbn [lsum]. ring.
  Qed.

  Lemma find_above : forall m0 (c : bmap) r, StronglySorted lt (map fst c) -> find r (above m0 c) = if r <? m0 then find r c else None.
  Proof.
    intros m0 c r. induction c as [|[k B] c IH]; intros S; cbn [above find]; [destruct (r <? m0); auto|]. cbn [map fst] in S. apply StronglySorted_inv in S. destruct S as [S F].
    cbn [fst]. destruct (Nat.ltb_spec k m0) as [G|G].
    - cbn [find]. destruct (Nat.eqb_spec r k) as [->|N]; [rewrite (proj2 (Nat.ltb_lt _ _) G); auto|]. apply IH; auto.
    - cbn [find]. destruct (Nat.ltb_spec r m0) as [G'|G']; auto. destruct (Nat.eqb_spec r k) as [->|N]; [lia|]. symmetry. apply find_none. intros H. rewrite Forall_forall in F. specialize (F _ H). lia.
  Qed.
  Lemma above_sorted : forall m0 (c : bmap), StronglySorted lt (map fst c) -> StronglySorted lt (map fst (above m0 c)) /\ forall e, In e (above m0 c) -> In e c /\ fst e < m0.
  Proof.
    intros m0 c. induction c as [|[k B] c IH]; intros S; cbn [above]; [split; [constructor|intros e []]|]. cbn [map fst] in *. apply StronglySorted_inv in S. destruct S as [S F]. destruct (IH S) as (I1 & I2).
    destruct (Nat.ltb_spec k m0) as [G|G]; [|split; [constructor|intros e []]]. split.
    - cbn [map fst]. constructor; auto. rewrite Forall_forall in *. intros x H. apply in_map_iff in H. destruct H as (e & <- & H). apply F. apply in_map. apply I2; auto.
    - intros e [<-|H]; [split; [left; auto|auto]|]. destruct (I2 e H). split; [right; auto|auto].
  Qed.

  Lemma lsum_key : forall (L : bmap) c (g : mat K -> K), StronglySorted lt (map fst L) ->
    lsum L (fun e => if c =? fst e then g (snd e) else k0) = match find c L with Some B => g B | None => k0 end.
  Proof.
    induction L as [|[k B] L IH]; intros c g S; cbn [lsum find fst snd]; auto. cbn [map fst] in S. apply StronglySorted_inv in S. destruct S as [S F]. rewrite IH by auto.
    destruct (Nat.eqb_spec c k) as [->|N]; [|ring]. rewrite (proj2 (find_none L k)); [ring|]. intros H. rewrite Forall_forall in F. specialize (F _ H). lia.
  Qed.

  Definition pair_term (s : nat) (iV : mat K) (W : bmap) (r c i j : nat) : K :=
    match find r W, find c W with Some Br, Some Bc => if r <=? c then mmul s (mmul s Br iV) (mtr Bc) i j else k0 | _, _ => k0 end.
  Definition vec_term (s : nat) (iV : mat K) (v : vec K) (W : bmap) (r t : nat) : K :=
    match find r W with Some B => mvmul s (mmul s B iV) v t | None => k0 end.

  Lemma schur_col_ok : forall l la s v iV m0 (W : bmap) A b, layout_ok l -> m0 <= length l -> length la = m0 -> StronglySorted lt (map fst W) -> (forall e, In e W -> fst e < m0) -> good A la la ->
    exists A' b', schur_col l s v iV W (A, b) = Ok (A', b') /\ good A' la la /\
      (forall r c i j, blk A' r c i j = ksub (blk A r c i j) (pair_term s iV W r c i j)) /\
      (forall r t, r < length l -> t < bsize l r -> b' (base l r + t) = ksub (b (base l r + t)) (vec_term s iV v W r t)).
  Proof.
    intros l la s v iV m0 W. induction W as [|[j Wj] W IH]; intros A b Lo Hm Ha S Hk G.
    - exists A, b. cbn [schur_col]. split; auto. split; auto. unfold pair_term, vec_term. cbn [find]. split; intros; ring.
    - cbn [schur_col]. assert (Hj : j < m0) by (apply (Hk (j, Wj)); left; auto).
      destruct (sub_loop _ (fun _ : nat * mat K => j) (fun k => fst k) (fun k => mmul s (mmul s Wj iV) (mtr (snd k))) la la ((j, Wj) :: W) A G) as (A1 & E1 & G1 & X1).
      { intros e He. specialize (Hk e He). lia. }
      cbn [fst]. rewrite E1. cbn [bind]. pose proof S as SS. cbn [map fst] in S. apply StronglySorted_inv in S. destruct S as [S F]. rewrite Forall_forall in F.
      destruct (IH A1 (seg_sub b (base l j) (bsize l j) (mvmul s (mmul s Wj iV) v)) Lo Hm Ha S) as (A' & b' & E & G' & XA & Xb); [intros; apply Hk; right; auto|auto|].
      exists A', b'. split; [exact E|]. split; auto. split.
      + intros r c p q. rewrite XA, X1.
        assert (Q : kadd (lsum ((j, Wj) :: W) (fun x => if (r =? j) && (c =? fst x) then mmul s (mmul s Wj iV) (mtr (snd x)) p q else k0)) (pair_term s iV W r c p q) = pair_term s iV ((j, Wj) :: W) r c p q).
        { destruct (Nat.eqb_spec r j) as [->|N].
          - cbn [andb]. rewrite (lsum_key ((j, Wj) :: W) c (fun B => mmul s (mmul s Wj iV) (mtr B) p q) SS).
            assert (FN : find j W = None) by (apply find_none; intros H; specialize (F _ H); lia).
            unfold pair_term. rewrite FN. cbn [find]. rewrite Nat.eqb_refl. destruct (Nat.eqb_spec c j) as [->|N].
            + rewrite Nat.leb_refl. ring.
            + destruct (find c W) as [Bc|] eqn:Fc; [|ring]. assert (j < c). { apply F. apply find_in in Fc; auto. apply (in_map fst) in Fc. exact Fc. }
              rewrite (proj2 (Nat.leb_le _ _)) by lia. ring.
          - cbn [andb]. rewrite lsum_zero by auto. unfold pair_term. cbn [find]. rewrite (proj2 (Nat.eqb_neq r j)) by auto. destruct (find r W) as [Br|] eqn:Fr; [|ring].
            destruct (Nat.eqb_spec c j) as [->|N']; [|destruct (find c W); ring].
            assert (j < r). { apply F. apply find_in in Fr; auto. apply (in_map fst) in Fr. exact Fr. }
            rewrite (proj2 (Nat.leb_gt r j)) by lia. destruct (find j W); ring. }
        rewrite <- Q. ring.
      + intros r t Hr Ht. rewrite Xb by auto. unfold seg_sub. rewrite tile_test by (auto; lia). unfold vec_term. cbn [find]. rewrite (Nat.eqb_sym j r). destruct (Nat.eqb_spec r j) as [->|N]; [|auto].
        rewrite (proj2 (find_none W j)) by (intros H; specialize (F _ H); lia). replace (base l j + t - base l j) with t by lia. ring.
  Qed.

  (* the whole loop *)
  Definition iVof (H : sbm) (lm : bool) (lambda : K) (m0 i : nat) : mat K := inv (bsize (s_rbi H) (m0 + i)) (damped lm lambda (blk H (m0 + i) (m0 + i))).
  Definition corrA (H : sbm) lm lambda m0 r c p q i : K :=
    if (r <=? c) && (c <? m0) then mmul (bsize (s_rbi H) (m0 + i)) (mmul (bsize (s_rbi H) (m0 + i)) (blk H r (m0 + i)) (iVof H lm lambda m0 i)) (mtr (blk H c (m0 + i))) p q else k0.
  Definition corrb (H : sbm) (rhs : vec K) lm lambda m0 r t i : K :=
    mvmul (bsize (s_rbi H) (m0 + i)) (mmul (bsize (s_rbi H) (m0 + i)) (blk H r (m0 + i)) (iVof H lm lambda m0 i)) (fun u => rhs (base (s_rbi H) (m0 + i) + u)) t.

  Lemma mmul_zero_l : forall n (B : mat K) i j, mmul n (fun _ _ => k0) B i j = k0.
  Proof. intros. unfold mmul. apply ksum_zero. intros. ring. Qed.
  Lemma schur_loop : forall H rhs lambda m0 lm A0 la l n, good H l l -> m0 + n <= length l -> length la = m0 -> good A0 la la ->
    exists x, fold_left (fun x i => do y <- x; schur_step inv rhs lambda m0 lm y i) (seq 0 n) (Ok (mkSchur H A0 [] rhs)) = Ok x /\
      good (sc_H x) l l /\ (forall r c, blk (sc_H x) r c = blk H r c) /\ sc_inv x = map (iVof H lm lambda m0) (seq 0 n) /\ good (sc_A x) la la /\
      (forall r c p q, blk (sc_A x) r c p q = ksub (blk A0 r c p q) (ksum n (corrA H lm lambda m0 r c p q))) /\
      (forall r t, r < m0 -> t < bsize l r -> sc_b x (base l r + t) = ksub (rhs (base l r + t)) (ksum n (corrb H rhs lm lambda m0 r t))).
  Proof.
    intros H rhs lambda m0 lm A0 la l n G. induction n as [|n IH]; intros Hn La GA.
    - eexists. split; [reflexivity|]. cbn [sc_H sc_A sc_inv sc_b ksum seq map]. split; auto. split; auto. split; auto. split; auto. split; intros; ring.
    - destruct IH as (x & E & Gx & Bx & Ix & GAx & XA & Xb); auto; [lia|]. rewrite seq_S, fold_left_app, E. cbn [fold_left bind plus]. unfold schur_step.
      assert (Hb : m0 + n < length l) by lia. rewrite (alloc_ok _ l l _ _ Gx Hb Hb). cbn [bind].
      destruct (set_ok _ l l _ _ (blk (sc_H x) (m0 + n) (m0 + n)) Gx Hb Hb) as (H' & E' & G' & X'). rewrite E'. cbn [bind].
      assert (B' : forall r c, blk H' r c = blk H r c).
      { intros r c. rewrite <- Bx. unfold blk at 1. rewrite X'. destruct (Nat.eqb_spec r (m0 + n)) as [->|N]; cbn [andb]; auto. destruct (Nat.eqb_spec c (m0 + n)) as [->|N]; cbn [andb]; auto. }
      pose proof G as (WH & _ & EHr & _). pose proof Gx as (_ & _ & Exr & _). pose proof G' as (W' & _ & E'r & _).
      rewrite Exr. assert (Lo : layout_ok l) by (rewrite <- EHr; apply WH). destruct (above_sorted m0 _ (wf_keys _ W' (m0 + n))) as (S1 & S2).
      rewrite Bx. assert (Ei : inv (bsize l (m0 + n)) (damped lm lambda (blk H (m0 + n) (m0 + n))) = iVof H lm lambda m0 n) by (unfold iVof; rewrite EHr; auto). rewrite Ei.
      destruct (schur_col_ok l la (bsize l (m0 + n)) (fun t => rhs (base l (m0 + n) + t)) (iVof H lm lambda m0 n) m0 (above m0 (nth (m0 + n) (s_cols H') [])) (sc_A x) (sc_b x) Lo ltac:(lia) La S1) as (A2 & b2 & E2 & G2 & XA2 & Xb2); auto.
      { intros e He. apply S2; auto. }
      rewrite E2. cbn [bind fst snd]. eexists. split; [reflexivity|]. cbn [sc_H sc_A sc_inv sc_b]. split; auto. split; auto. split; [rewrite Ix, map_app; auto|]. split; auto.
      assert (FA : forall r, find r (above m0 (nth (m0 + n) (s_cols H') [])) = if r <? m0 then get H' r (m0 + n) else None) by (intros r; apply find_above; apply W').
      split.
      + intros r c p q. rewrite XA2, XA. cbn [ksum]. assert (Q : pair_term (bsize l (m0 + n)) (iVof H lm lambda m0 n) (above m0 (nth (m0 + n) (s_cols H') [])) r c p q = corrA H lm lambda m0 r c p q n).
        { unfold pair_term, corrA. rewrite !FA, EHr. rewrite <- !B'. unfold blk. destruct (Nat.leb_spec r c) as [Q|Q]; cbn [andb].
          - destruct (Nat.ltb_spec c m0) as [Q1|Q1].
            + rewrite (proj2 (Nat.ltb_lt r m0)) by lia. destruct (get H' r (m0 + n)) as [Br|] eqn:E1; [destruct (get H' c (m0 + n)) as [Bc|] eqn:E3; auto|].
              * unfold mmul, mtr. rewrite ksum_zero; auto. intros. ring.
              * symmetry. unfold mmul at 1. apply ksum_zero. intros. rewrite mmul_zero_l. ring.
            + destruct (if r <? m0 then get H' r (m0 + n) else None); auto.
          - destruct (if r <? m0 then get H' r (m0 + n) else None); auto. destruct (if c <? m0 then get H' c (m0 + n) else None); auto. }
        rewrite Q. ring.
      + intros r t Hr Ht. rewrite Xb2 by (auto; lia). rewrite Xb by auto. cbn [ksum]. assert (Q : vec_term (bsize l (m0 + n)) (iVof H lm lambda m0 n) (fun t0 => rhs (base l (m0 + n) + t0)) (above m0 (nth (m0 + n) (s_cols H') [])) r t = corrb H rhs lm lambda m0 r t n).
        { unfold vec_term, corrb. rewrite FA, (proj2 (Nat.ltb_lt r m0) Hr), EHr, <- B'. unfold blk. destruct (get H' r (m0 + n)); auto. symmetry. unfold mvmul. apply ksum_zero. intros. rewrite mmul_zero_l. ring. }
        rewrite Q. ring.
  Qed.

  Lemma damp_all_ok : forall lambda A la, good A la la ->
    exists A', damp_all lambda A = Ok A' /\ good A' la la /\ forall r c i j, r < length la -> blk A' r c i j = if (r =? c) then addDiag lambda (blk A r c) i j else blk A r c i j.
  Proof.
    intros lambda A la G. unfold damp_all. replace (length (s_rbi A)) with (length la) by (destruct G as (_ & _ & <- & _); auto).
    assert (P : forall n, n <= length la -> exists A', fold_left (fun x i => do a <- x; do B <- blockAlloc a i i; setBlock a i i (addDiag lambda B)) (seq 0 n) (Ok A) = Ok A' /\ good A' la la /\
      forall r c i j, blk A' r c i j = if (r =? c) && (r <? n) then addDiag lambda (blk A r c) i j else blk A r c i j).
    { induction n as [|n IH]; intros Hn.
      - exists A. split; auto. split; auto. intros. rewrite Bool.andb_false_r. auto.
      - destruct IH as (A1 & E1 & G1 & X1); [lia|]. rewrite seq_S, fold_left_app, E1. cbn [fold_left bind plus]. rewrite (alloc_ok _ la la _ _ G1) by lia. cbn [bind].
        destruct (set_ok A1 la la n n (addDiag lambda (blk A1 n n)) G1 ltac:(lia) ltac:(lia)) as (A2 & E2 & G2 & X2). exists A2. split; auto. split; auto.
        intros r c i j. unfold blk at 1. rewrite X2. destruct (Nat.eqb_spec r n) as [->|N]; cbn [andb].
        + destruct (Nat.eqb_spec c n) as [->|N].
          * rewrite Nat.eqb_refl. cbn [andb]. rewrite (proj2 (Nat.ltb_lt n (S n))) by lia. unfold addDiag. rewrite !X1, Nat.eqb_refl, Nat.ltb_irrefl. cbn [andb]. auto.
          * fold (blk A1 n c). rewrite X1. rewrite (proj2 (Nat.eqb_neq n c)) by auto. auto.
        + fold (blk A1 r c). rewrite X1. replace (r <? S n) with (r <? n); auto. destruct (Nat.ltb_spec r n), (Nat.ltb_spec r (S n)); auto; lia. }
    destruct (P (length la) (le_n _)) as (A' & E & G' & X). exists A'. split; auto. split; auto. intros r c i j Hr. rewrite X, (proj2 (Nat.ltb_lt _ _) Hr), Bool.andb_true_r. auto.
  Qed.
End Proofs.
