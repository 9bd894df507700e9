(** * SparseBlockMatrix: slices into a given matrix, permutation *)
From Coq Require Import Arith Lia List Bool Sorting.Sorted FinFun.
From Verif Require Import Lib_Ring Lib_Res CCM_Model CCM_Proofs CCM_Proofs2 SBM_Model SBM_Spec SBM_Proofs SBM_Proofs2 SBM_Proofs3.
Import ListNotations.

Section Ops4.
  Context {K : Type} {R : CRing K}.
  Add Ring Kring4 : (@kring K R).
  Notation sbm := (sbm K). Notation bmap := (bmap K).

  Lemma fold_filter : forall X St (g : St -> X -> res St) (p : X -> bool) L s,
    fold_left (fun s e => do x <- s; if p e then g x e else Ok x) L s = fold_left (fun s e => do x <- s; g x e) (filter p L) s.
  Proof.
    intros X St g p. induction L as [|e L IH]; intros s; cbn [fold_left filter]; auto. rewrite IH. destruct (p e); cbn [fold_left]; auto.
    f_equal. destruct s; reflexivity.
  Qed.
  Lemma fold_map : forall X Y St (f : St -> Y -> St) (g : X -> Y) L s, fold_left (fun s x => f s (g x)) L s = fold_left f (map g L) s.
  Proof. induction L as [|x L IH]; intros s; cbn [fold_left map]; auto. Qed.

  Lemma sliceInto_ok : forall (m : sbm) A rmin rmax cmin cmax out rbi cbi D, well_formed m -> stands_for m A -> rmin <= rmax -> cmin <= cmax -> rmax <= length (s_rbi m) -> cmax <= length (s_cbi m) ->
    represents out rbi cbi D -> length rbi = rmax - rmin -> length cbi = cmax - cmin ->
    (forall k, k < rmax - rmin -> bsize rbi k = bsize (s_rbi m) (rmin + k)) -> (forall k, k < cmax - cmin -> bsize cbi k = bsize (s_cbi m) (cmin + k)) ->
    exists d, sliceInto m rmin rmax cmin cmax out = Ok d /\ represents d rbi cbi (fun p q => A (base (s_rbi m) rmin + p) (base (s_cbi m) cmin + q)).
  Proof.
    intros m A rmin rmax cmin cmax out rbi cbi D W S H1 H2 H3 H4 Ro L1 L2 Z1 Z2. destruct (clear_ok out rbi cbi D false Ro) as (Rc & _ & _).
    destruct (represents_good _ _ _ _ Rc) as (G & Sc). unfold sliceInto. rewrite (wf_len _ W), (proj2 (Nat.leb_le _ _) H4).
    set (p := fun e : nat * mat K => (rmin <=? fst e) && (fst e <? rmax)).
    set (L := flat_map (fun i => map (fun e : nat * mat K => (fst e - rmin, i, snd e)) (filter p (nth (cmin + i) (s_cols m) []))) (seq 0 (cmax - cmin))).
    assert (IN : forall r c B, In (r, c, B) L <-> r < rmax - rmin /\ c < cmax - cmin /\ get m (rmin + r) (cmin + c) = Some B).
    { intros r c B. unfold L. rewrite in_flat_map. split.
      - intros (i & Hi & H). apply in_seq in Hi. apply in_map_iff in H. destruct H as ([k V] & E & H). injection E as <- <- <-. apply filter_In in H. destruct H as (H & P). unfold p in P.
        cbn [fst snd] in *. apply andb_true_iff in P. destruct P as (P1 & P2). apply Nat.leb_le in P1. apply Nat.ltb_lt in P2. split; [lia|]. split; [lia|].
        replace (rmin + (k - rmin)) with k by lia. apply entry_get; auto. apply in_entries. split; auto. rewrite (wf_len _ W). lia.
      - intros (Hr & Hc & H). apply entry_get in H; auto. apply in_entries in H. destruct H as (_ & H). exists c. split; [apply in_seq; lia|]. apply in_map_iff. exists (rmin + r, B). cbn [fst snd].
        split; [f_equal; f_equal; lia|]. apply filter_In. split; auto. unfold p. cbn [fst]. rewrite (proj2 (Nat.leb_le _ _)), (proj2 (Nat.ltb_lt _ _)) by lia. auto. }
    destruct (set_loop _ (fun e : nat * nat * mat K => fst (fst e)) (fun e => snd (fst e)) (fun e => snd e) rbi cbi L (clear false out) G) as (d & E & Gd & Q1 & Q2).
    { intros [[r c] B] H. apply IN in H. cbn [fst snd]. lia. }
    exists d. split.
    - rewrite <- E. unfold L. rewrite <- (fold_flat _ _ _ (fun (y : sbm) x => setBlock y (fst (fst x)) (snd (fst x)) (snd x))). apply fold_ext_in. intros s i _. destruct s as [x| |]; cbn [bind]; auto.
      etransitivity; [apply (fold_filter _ _ (fun x e => setBlock x (fst e - rmin) i (snd e)) p)|].
      etransitivity; [|apply (fold_map _ _ _ (fun (s : res sbm) e => do z <- s; setBlock z (fst (fst e)) (snd (fst e)) (snd e)) (fun e : nat * mat K => (fst e - rmin, i, snd e)))].
      reflexivity.
    - apply good_represents; auto. intros br bc i j B1 B2 B3 B4.
      assert (Eb : forall k, k <= length rbi -> base (s_rbi m) rmin + base rbi k = base (s_rbi m) (rmin + k)).
      { destruct G as (Wg & _ & Er & _). assert (Lo : layout_ok rbi) by (rewrite <- Er; apply (wf_rows _ Wg)). induction k as [|k IH]; intros Hk; [cbn [base]; rewrite !Nat.add_0_r; auto|].
        rewrite Nat.add_succ_r, !base_S by (auto; try apply W; lia). rewrite Z1 by lia. specialize (IH ltac:(lia)). lia. }
      assert (Ec : forall k, k <= length cbi -> base (s_cbi m) cmin + base cbi k = base (s_cbi m) (cmin + k)).
      { destruct G as (Wg & _ & _ & Er). assert (Lo : layout_ok cbi) by (rewrite <- Er; apply (wf_cols _ Wg)). induction k as [|k IH]; intros Hk; [cbn [base]; rewrite !Nat.add_0_r; auto|].
        rewrite Nat.add_succ_r, !base_S by (auto; try apply W; lia). rewrite Z2 by lia. specialize (IH ltac:(lia)). lia. }
      rewrite !Nat.add_assoc, Eb, Ec by lia. rewrite Z1 in B3 by lia. rewrite Z2 in B4 by lia. rewrite S by (auto; lia). unfold blk at 1.
      destruct (get m (rmin + br) (cmin + bc)) as [B|] eqn:Eg.
      + destruct (Q2 br bc (fun X => X = B)) as (X & EX & ->).
        * exists (br, bc, B). split; [|auto]. apply IN. rewrite <- L1, <- L2. auto.
        * intros [[r c] X] H <- <-. cbn [fst snd] in *. apply IN in H. destruct H as (_ & _ & H). congruence.
        * unfold blk. rewrite EX. auto.
      + transitivity (blk (clear false out) br bc i j); [apply (Sc br bc i j); auto; [rewrite Z1 by lia|rewrite Z2 by lia]; auto|]. unfold blk. rewrite Q1; auto.
        intros [[r c] X] H. cbn [fst snd]. destruct (Nat.eq_dec r br) as [->|]; auto. destruct (Nat.eq_dec c bc) as [->|]; auto. apply IN in H. destruct H as (_ & _ & H). congruence.
  Qed.

  (** ** symmetric permutation *)
  Lemma perm_surj : forall n p, is_perm n p -> forall k, k < n -> exists i, i < n /\ p i = k.
  Proof.
    intros n p (P1 & P2) k Hk. assert (B : bFun n p) by (intros i Hi; apply P1; auto). destruct (proj1 (bInjective_bSurjective B)) with (y := k) as (i & H1 & H2); eauto.
  Qed.
  Lemma puts_all : forall T (d : T) ws a, (forall i v, In (i, v) ws -> i < length a) -> exists a', puts ws a = Ok a' /\ length a' = length a /\
    (forall i, ~ In i (map fst ws) -> nth i a' d = nth i a d) /\ (forall i v, In i (map fst ws) -> (forall u, In (i, u) ws -> u = v) -> nth i a' d = v).
  Proof.
    intros T d. induction ws as [|[i v] ws IH]; intros a H.
    - exists a. split; auto.
    - assert (Hi : i < length a) by (eapply H; left; eauto). destruct (IH (upd a i v)) as (a' & E & L & Q1 & Q2).
      { intros k u Hk. rewrite upd_length. eapply H. right. eauto. }
      exists a'. cbn [puts map fst]. rewrite (proj2 (Nat.ltb_lt _ _) Hi). split; auto. split; [rewrite L; apply upd_length|]. split.
      + intros k N. rewrite Q1 by (intros X; apply N; right; auto). apply nth_upd_other. intros ->. apply N. left; auto.
      + intros k u Hk F. destruct (in_dec Nat.eq_dec k (map fst ws)) as [I|I].
        * apply Q2; auto. intros x Hx. apply F. right; auto.
        * destruct Hk as [<-|Hk]; [|contradiction]. rewrite Q1 by auto. rewrite nth_upd_same by auto. apply F. left; auto.
  Qed.
  Lemma perm_sizes : forall n p (f : nat -> nat), is_perm n p -> exists sizes, puts (map (fun i => (p i, f i)) (seq 0 n)) (repeat 0 n) = Ok sizes /\ length sizes = n /\ forall i, i < n -> nth (p i) sizes 0 = f i.
  Proof.
    intros n p f (P1 & P2). destruct (puts_all _ 0 (map (fun i => (p i, f i)) (seq 0 n)) (repeat 0 n)) as (s & E & L & _ & Q).
    - intros i v H. apply in_map_iff in H. destruct H as (k & X & H). injection X as <- _. apply in_seq in H. rewrite repeat_length. apply P1. lia.
    - exists s. split; auto. split; [rewrite L, repeat_length; auto|]. intros i Hi. apply Q.
      + rewrite map_map. cbn [fst]. apply in_map. apply in_seq. lia.
      + intros u H. apply in_map_iff in H. destruct H as (k & X & H). injection X as X1 <-. apply in_seq in H. f_equal. apply P2; auto; lia.
  Qed.
  Lemma permuted_layout_ok : forall (m : sbm) pinv, well_formed m -> s_rbi m <> [] -> is_perm (length (s_rbi m)) pinv ->
    exists l, permuted_layout m pinv = Ok l /\ layout_ok l /\ length l = length (s_rbi m) /\ forall i, i < length (s_rbi m) -> bsize l (pinv i) = bsize (s_rbi m) i.
  Proof.
    intros m pinv W N P. unfold permuted_layout. destruct (s_rbi m) as [|x t] eqn:E; [congruence|]. rewrite <- E in *. clear x t E. cbv zeta.
    destruct (perm_sizes (length (s_rbi m)) pinv (bsize (s_rbi m)) P) as (s & Es & Ls & Q). rewrite Es. cbn [bind]. exists (running 0 s). destruct (running_ok s) as (R1 & R2).
    split; auto. split; auto. split; [rewrite running_length; auto|]. intros i Hi. rewrite R2 by (rewrite Ls; apply P; auto). auto.
  Qed.

  (* full: every block moves to its permuted place *)
  Lemma permute_full : forall (m : sbm) pinv l d, well_formed m -> s_cbi m = s_rbi m -> is_perm (length (s_rbi m)) pinv -> length l = length (s_rbi m) ->
    good d l l -> (forall r c i j, blk d r c i j = k0) ->
    exists d', permute_loop m pinv false d = Ok d' /\ good d' l l /\ forall r c i j, r < length (s_rbi m) -> c < length (s_rbi m) -> blk d' (pinv r) (pinv c) i j = blk m r c i j.
  Proof.
    intros m pinv l d W Sq P L G Z. unfold permute_loop, loop. cbn [negb orb]. cbv zeta.
    destruct (set_loop _ (fun e : nat * nat * mat K => pinv (fst (fst e))) (fun e => pinv (snd (fst e))) (fun e => snd e) l l (entries m) d G) as (d' & E & G' & Q1 & Q2).
    { intros e H. apply entry_range in H; auto. rewrite Sq in H. rewrite L. split; apply P; apply H. }
    exists d'. split; [exact E|]. split; auto. intros r c i j Hr Hc. unfold blk at 2. destruct (get m r c) as [B|] eqn:Eg.
    - destruct (Q2 (pinv r) (pinv c) (fun X => X = B)) as (X & EX & ->).
      + exists (r, c, B). split; auto. apply entry_get; auto.
      + intros [[r' c'] X] H E1 E2. cbn [fst snd] in *. pose proof (entry_range m _ W H) as (H1 & H2). cbn [fst snd] in H1, H2. rewrite Sq in H2. apply P in E1; auto. apply P in E2; auto. subst.
        apply entry_get in H; auto. congruence.
      + unfold blk. rewrite EX. auto.
    - rewrite <- (Z (pinv r) (pinv c) i j). unfold blk. rewrite Q1; auto.
      intros [[r' c'] X] H. cbn [fst snd]. destruct (Nat.eq_dec (pinv r') (pinv r)) as [E1|]; auto. destruct (Nat.eq_dec (pinv c') (pinv c)) as [E2|]; auto. exfalso.
      pose proof (entry_range m _ W H) as (H1 & H2). cbn [fst snd] in H1, H2. rewrite Sq in H2. apply P in E1; auto. apply P in E2; auto. subst. apply entry_get in H; auto. congruence.
  Qed.
  (* upper: the stored blocks of a symmetric matrix, of which it may store only one of each pair, give the upper blocks of the permuted matrix *)
  Lemma permute_upper : forall (m : sbm) (Sb : nat -> nat -> mat K) pinv l d, well_formed m -> s_cbi m = s_rbi m -> is_perm (length (s_rbi m)) pinv -> length l = length (s_rbi m) ->
    (forall r c i j, r < length (s_rbi m) -> c < length (s_rbi m) -> i < bsize (s_rbi m) r -> j < bsize (s_rbi m) c -> Sb r c i j = Sb c r j i) ->
    (forall r c B i j, get m r c = Some B -> i < bsize (s_rbi m) r -> j < bsize (s_rbi m) c -> B i j = Sb r c i j) ->
    (forall r c i j, r < length (s_rbi m) -> c < length (s_rbi m) -> get m r c = None -> get m c r = None -> i < bsize (s_rbi m) r -> j < bsize (s_rbi m) c -> Sb r c i j = k0) ->
    good d l l -> (forall r c i j, blk d r c i j = k0) ->
    exists d', permute_loop m pinv true d = Ok d' /\ good d' l l /\
      (forall r c i j, r < length (s_rbi m) -> c < length (s_rbi m) -> pinv r <= pinv c -> i < bsize (s_rbi m) r -> j < bsize (s_rbi m) c -> blk d' (pinv r) (pinv c) i j = Sb r c i j) /\
      (forall r c, c < r -> get d' r c = get d r c).
  Proof.
    intros m Sb pinv l d W Sq P L Sy St Sz G Z. unfold permute_loop, loop. cbn [negb orb]. cbv zeta.
    set (kr := fun e : nat * nat * mat K => if pinv (fst (fst e)) <=? pinv (snd (fst e)) then pinv (fst (fst e)) else pinv (snd (fst e))).
    set (kc := fun e : nat * nat * mat K => if pinv (fst (fst e)) <=? pinv (snd (fst e)) then pinv (snd (fst e)) else pinv (fst (fst e))).
    set (v := fun e : nat * nat * mat K => if pinv (fst (fst e)) <=? pinv (snd (fst e)) then snd e else mtr (snd e)).
    assert (RG : forall e, In e (entries m) -> fst (fst e) < length (s_rbi m) /\ snd (fst e) < length (s_rbi m)) by (intros e H; apply entry_range in H; auto; rewrite Sq in H; auto).
    destruct (set_loop _ kr kc v l l (entries m) d G) as (d' & E & G' & Q1 & Q2).
    { intros e H. apply RG in H. rewrite L. unfold kr, kc. destruct (pinv (fst (fst e)) <=? pinv (snd (fst e))); split; apply P; apply H. }
    assert (E' : fold_left (fun s e => do x <- s; (if pinv (fst (fst e)) <=? pinv (snd (fst e)) then setBlock x (pinv (fst (fst e))) (pinv (snd (fst e))) (snd e)
        else setBlock x (pinv (snd (fst e))) (pinv (fst (fst e))) (mtr (snd e)))) (entries m) (Ok d) = Ok d').
    { rewrite <- E. apply fold_ext_in. intros [s| |] e _; cbn [bind]; auto. unfold kr, kc, v. destruct (pinv (fst (fst e)) <=? pinv (snd (fst e))); auto. }
    exists d'. split; [exact E'|]. split; auto.
    (* an entry that goes to the place of (r, c) *)
    assert (WH : forall r c e, r < length (s_rbi m) -> c < length (s_rbi m) -> In e (entries m) -> kr e = pinv r -> kc e = pinv c ->
      (fst (fst e) = r /\ snd (fst e) = c /\ v e = snd e) \/ (fst (fst e) = c /\ snd (fst e) = r /\ v e = mtr (snd e))).
    { intros r c e Hr Hc H. apply RG in H. destruct H as (H1 & H2). unfold kr, kc, v. destruct (pinv (fst (fst e)) <=? pinv (snd (fst e))); intros X1 X2; apply P in X1; auto; apply P in X2; auto. }
    split.
    - intros r c i j Hr Hc Le Hi Hj.
      assert (Y : (exists e, In e (entries m) /\ kr e = pinv r /\ kc e = pinv c) \/ (get m r c = None /\ get m c r = None)).
      { destruct (get m r c) as [B|] eqn:E1.
        - left. exists (r, c, B). split; [apply entry_get; auto|]. unfold kr, kc. cbn [fst snd]. rewrite (proj2 (Nat.leb_le _ _) Le). auto.
        - destruct (get m c r) as [B|] eqn:E2; auto. left. exists (c, r, B). split; [apply entry_get; auto|]. unfold kr, kc. cbn [fst snd].
          destruct (Nat.leb_spec (pinv c) (pinv r)); auto. assert (pinv r = pinv c) by lia. auto. }
      destruct Y as [Y|(Y1 & Y2)].
      + destruct (Q2 (pinv r) (pinv c) (fun X => X i j = Sb r c i j) Y) as (X & EX & HX); [|unfold blk; rewrite EX; auto].
        intros [[r' c'] B] H X1 X2. destruct (WH r c _ Hr Hc H X1 X2) as [(F1 & F2 & ->)|(F1 & F2 & ->)]; cbn [fst snd] in *.
        * subst. apply entry_get in H; auto.
        * subst. apply entry_get in H; auto. unfold mtr. rewrite (Sy r c) by auto. auto.
      + rewrite (Sz r c) by auto. rewrite <- (Z (pinv r) (pinv c) i j). unfold blk. rewrite Q1; auto. intros [[r' c'] B] H. destruct (Nat.eq_dec (kr (r', c', B)) (pinv r)) as [X1|]; auto.
        destruct (Nat.eq_dec (kc (r', c', B)) (pinv c)) as [X2|]; auto. exfalso. apply entry_get in H as H'; auto.
        destruct (WH r c _ Hr Hc H X1 X2) as [(F1 & F2 & _)|(F1 & F2 & _)]; cbn [fst snd] in *; subst; congruence.
    - intros r c H. apply Q1. intros e _. unfold kr, kc. destruct (Nat.leb_spec (pinv (fst (fst e))) (pinv (snd (fst e)))); lia.
  Qed.

  Lemma layout_ext : forall a b, layout_ok a -> layout_ok b -> length a = length b -> (forall k, k < length a -> bsize a k = bsize b k) -> a = b.
  Proof.
    intros a b La Lb L H. assert (B : forall k, k <= length a -> base a k = base b k).
    { induction k as [|k IH]; intros Hk; auto. rewrite !base_S by (auto; lia). rewrite IH, H by lia. auto. }
    apply (nth_ext _ _ 0 0); auto. intros k Hk. apply (B (S k)). lia.
  Qed.
  Lemma permuted_unique : forall (m : sbm) pinv l, well_formed m -> s_rbi m <> [] -> is_perm (length (s_rbi m)) pinv -> permuted_blocks (s_rbi m) pinv l -> permuted_layout m pinv = Ok l.
  Proof.
    intros m pinv l W N P (Lo & L & Z). destruct (permuted_layout_ok m pinv W N P) as (l' & E & Lo' & L' & Z'). rewrite E. f_equal. apply layout_ext; auto; [congruence|].
    intros k Hk. destruct (perm_surj _ _ P k) as (i & Hi & <-); [congruence|]. rewrite Z, Z'; auto.
  Qed.
  Lemma usable_start : forall (dest : option sbm) l, layout_ok l -> usable dest l ->
    exists d, good d l l /\ (forall r c i j, blk d r c i j = k0) /\ (dest = None -> forall r c, get d r c = None) /\
      forall (m : sbm) pinv upper, permuted_layout m pinv = Ok l -> symmPermutation m dest pinv upper = (do d' <- permute_loop m pinv upper d; Ok (Some d')).
  Proof.
    intros [d|] l Lo U.
    - destruct U as (D & Rd). destruct (represents_good _ _ _ _ Rd) as ((W & S & E1 & E2) & _). exists (clear false d). destruct (clear_ok d l l D false Rd) as (Rc & _).
      destruct (represents_good _ _ _ _ Rc) as (G & _). split; auto. split; [|split; [discriminate|]].
      + intros r c i j. unfold clear. rewrite S. cbn [andb]. destruct (map_blocks (fun _ => zeroM) d W) as (_ & _ & _ & _ & Gm). unfold blk. rewrite Gm. destruct (get d r c); reflexivity.
      + intros m pinv upper E. unfold symmPermutation. rewrite E. cbn [bind]. rewrite E1, E2, !same_refl. auto.
    - exists (fresh l l). destruct (@fresh_good K l l Lo Lo) as (G & N). split; auto. split; [intros; rewrite blk_none; auto|]. split; auto. intros m pinv upper E. unfold symmPermutation. rewrite E. auto.
  Qed.
  Lemma symm_full : forall (m : sbm) A pinv l A' dest, well_formed m -> s_cbi m = s_rbi m -> s_rbi m <> [] -> stands_for m A -> is_perm (length (s_rbi m)) pinv ->
    permuted_blocks (s_rbi m) pinv l -> permuted (s_rbi m) pinv l A A' -> usable dest l -> delivers (symmPermutation m dest pinv false) l l A'.
  Proof.
    intros m A pinv l A' dest W Sq N St P PB PA U. pose proof PB as (Lo & L & Z). destruct (usable_start dest l Lo U) as (d & G & Zd & _ & E). rewrite E by (apply permuted_unique; auto).
    destruct (permute_full m pinv l d W Sq P L G Zd) as (d' & E' & G' & X). exists d'. rewrite E'. split; auto. apply good_represents; auto.
    intros br bc i j H1 H2 H3 H4. rewrite L in H1, H2. destruct (perm_surj _ _ P br H1) as (r & Hr & <-). destruct (perm_surj _ _ P bc H2) as (c & Hc & <-). rewrite Z in H3, H4 by auto.
    rewrite PA, X by auto. rewrite <- Sq in *. rewrite <- (St r c i j); auto; rewrite ?Sq in *; auto.
  Qed.
  Lemma symm_upper : forall (m : sbm) S pinv l S' dest, well_formed m -> s_cbi m = s_rbi m -> s_rbi m <> [] -> stores_half m S -> is_perm (length (s_rbi m)) pinv ->
    permuted_blocks (s_rbi m) pinv l -> permuted (s_rbi m) pinv l S S' -> usable dest l ->
    exists d, symmPermutation m dest pinv true = Ok (Some d) /\
      holds_upper d l S' /\ (dest = None -> forall r c, c < r -> get d r c = None).
  Proof.
    intros m S pinv l S' dest W Sq N (Sy & Sb & Sz) P PB PA U. pose proof PB as (Lo & L & Z). destruct (usable_start dest l Lo U) as (d & G & Zd & Nd & E). rewrite E by (apply permuted_unique; auto).
    assert (RG : forall r i, r < length (s_rbi m) -> i < bsize (s_rbi m) r -> base (s_rbi m) r + i < total (s_rbi m)).
    { intros r i Hr Hi. rewrite total_base. pose proof (base_mono (s_rbi m) (Datatypes.S r) (length (s_rbi m)) (wf_rows _ W) ltac:(lia) ltac:(lia)) as M. rewrite base_S in M by (auto; apply W). lia. }
    destruct (permute_upper m (fun r c i j => S (base (s_rbi m) r + i) (base (s_rbi m) c + j)) pinv l d W Sq P L) as (d' & E' & G' & X & Y); auto.
    exists d'. rewrite E'. split; auto. split; [|intros Q r c H; rewrite Y by auto; auto]. destruct G' as (W' & S1 & S2 & S3). split; auto. split; auto. split; auto. split; auto. intros br bc i j H1 H2 H3 H4.
    destruct (Nat.leb_spec br bc) as [B|B].
    - rewrite L in H1, H2. destruct (perm_surj _ _ P br H1) as (r & Hr & <-). destruct (perm_surj _ _ P bc H2) as (c & Hc & <-). rewrite Z in H3, H4 by auto. rewrite PA, X by auto. auto.
    - transitivity (blk d br bc i j); [|apply Zd]. unfold blk. rewrite Y by auto. auto.
  Qed.
  Lemma symm_mismatch : forall (m d : sbm) pinv l upper, well_formed m -> s_rbi m <> [] -> is_perm (length (s_rbi m)) pinv -> permuted_blocks (s_rbi m) pinv l -> s_rbi d <> l \/ s_cbi d <> l ->
    symmPermutation m (Some d) pinv upper = Ok None.
  Proof.
    intros m d pinv l upper W N P PB H. unfold symmPermutation. rewrite (permuted_unique m pinv l) by auto. cbn [bind].
    destruct (same (s_rbi d) l) eqn:E1; cbn [andb]; auto. destruct (same (s_cbi d) l) eqn:E2; auto. apply same_true in E1. apply same_true in E2. destruct H; contradiction.
  Qed.
  Lemma layout_exists : forall (m : sbm) pinv, well_formed m -> s_rbi m <> [] -> is_perm (length (s_rbi m)) pinv ->
    exists l, permuted_blocks (s_rbi m) pinv l /\ forall d upper, s_rbi d <> l \/ s_cbi d <> l -> symmPermutation m (Some d) pinv upper = Ok None.
  Proof.
    intros m pinv W N P. destruct (permuted_layout_ok m pinv W N P) as (l & E & Lo & L & Z). exists l. assert (PB : permuted_blocks (s_rbi m) pinv l) by (split; auto).
    split; auto. intros d upper H. apply (symm_mismatch m d pinv l); auto.
  Qed.
End Ops4.
