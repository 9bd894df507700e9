From Coq Require Import Arith Lia List ZArith NArith Bool Reals Lra.
From Verif Require Import Lib_Ring Lib_Real Lib_Res CCM_Model SBM_Model SBM_Spec SBM_Proofs SBM_Proofs2 SBM_Proofs3 MatIf_Model MatIf_Spec.
From Verif Require CCM_Spec CCM_Proofs CCM_Proofs3.
Import ListNotations.
Local Open Scope nat_scope.

Section MP.
  Context {K : Type} {R : CRing K}.
  Add Ring KringMI : (kring (K := K)).
  Notation sbm := (sbm K). Notation ccm := (ccm K). Notation store := (store K).

  Lemma assign_same : forall (s : store) y v, assign s y v y = v. Proof. intros. unfold assign. rewrite Nat.eqb_refl. auto. Qed.
  Lemma assign_other : forall (s : store) y v z, z <> y -> assign s y v z = s z. Proof. intros. unfold assign. rewrite (proj2 (Nat.eqb_neq _ _)) by auto. auto. Qed.
  (** a store that differs from s in y only, where it holds v *)
  Definition holds (s : store) (y n : nat) (v : vec K) (t : store) : Prop := fst (t y) = n /\ (forall i, snd (t y) i = v i) /\ forall z, z <> y -> t z = s z.
  Lemma holds_result : forall s y n v w r t, r = Ok t -> holds s y n v t -> (forall i, i < n -> v i = w i) -> result_is s y n w r.
  Proof. intros s y n v w r t -> (A & B & C) E. exists t. split; [auto|]. split; [auto|]. split; [|auto]. intros i Hi. rewrite B. auto. Qed.
  Lemma holds_assign : forall s y n v, holds s y n v (assign s y (n, v)).
  Proof. intros. split; [rewrite assign_same; auto|]. split; [intros; rewrite assign_same; auto|]. intros. apply assign_other; auto. Qed.
  Lemma holds_again : forall s y n v t w, holds s y n v t -> holds s y n w (assign t y (n, w)).
  Proof. intros s y n v t w (A & B & C). split; [rewrite assign_same; auto|]. split; [intros; rewrite assign_same; auto|]. intros. rewrite assign_other; auto. Qed.

  (** ** dense *)
  Definition zero_at (small : K -> bool) (A : mat K) (rc : nat * nat) : mat K := if small (A (fst rc) (snd rc)) then (fun i j => if (i =? fst rc) && (j =? snd rc) then k0 else A i j) else A.
  Lemma zero_at_val : forall small A rc i j, zero_at small A rc i j = if (i =? fst rc) && (j =? snd rc) then (if small (A i j) then k0 else A i j) else A i j.
  Proof.
    intros small A [r c] i j. unfold zero_at. cbn [fst snd]. destruct (small (A r c)) eqn:E; destruct (Nat.eqb_spec i r) as [->|]; cbn [andb]; auto; destruct (Nat.eqb_spec j c) as [->|]; auto; rewrite E; auto.
  Qed.
  Lemma zero_out : forall small L A i j, ~ In (i, j) L -> fold_left (zero_at small) L A i j = A i j.
  Proof.
    intros small. induction L as [|[r c] L IH]; intros A i j N; cbn [fold_left]; auto. rewrite IH by (intro H; apply N; right; auto). rewrite zero_at_val. cbn [fst snd].
    destruct (Nat.eqb_spec i r) as [->|]; cbn [andb]; auto. destruct (Nat.eqb_spec j c) as [->|]; auto. exfalso. apply N. left. auto.
  Qed.
  Lemma zero_in : forall small L A i j, NoDup L -> In (i, j) L -> fold_left (zero_at small) L A i j = if small (A i j) then k0 else A i j.
  Proof.
    intros small. induction L as [|[r c] L IH]; intros A i j D I; [destruct I|]. inversion D; subst. cbn [fold_left]. destruct I as [E|I].
    - injection E as -> ->. rewrite zero_out by auto. rewrite zero_at_val. cbn [fst snd]. rewrite !Nat.eqb_refl. auto.
    - rewrite IH by auto. rewrite zero_at_val. cbn [fst snd]. destruct (Nat.eqb_spec i r) as [->|]; cbn [andb]; auto. destruct (Nat.eqb_spec j c) as [->|]; auto. contradiction.
  Qed.
  Lemma nodup_pairs : forall n (l : list nat), NoDup l -> NoDup (flat_map (fun r => map (fun c => (r, c)) (seq 0 n)) l).
  Proof.
    intros n. induction l as [|r l IH]; intros D; cbn [flat_map]; [constructor|]. inversion D; subst.
    assert (N1 : NoDup (map (fun c => (r, c)) (seq 0 n))). { apply FinFun.Injective_map_NoDup; [intros a b E; injection E; auto|apply seq_NoDup]. }
    assert (N2 : forall x, In x (map (fun c => (r, c)) (seq 0 n)) -> ~ In x (flat_map (fun r => map (fun c => (r, c)) (seq 0 n)) l)).
    { intros x I J. apply in_map_iff in I. destruct I as (c & <- & _). apply in_flat_map in J. destruct J as (r' & I' & J). apply in_map_iff in J. destruct J as (c' & E & _). injection E as -> _. contradiction. }
    revert N1 N2. generalize (map (fun c => (r, c)) (seq 0 n)). induction l0 as [|a l0 IH0]; intros N1 N2; cbn; [apply IH; auto|]. inversion N1; subst.
    constructor; [|apply IH0; auto; intros; apply N2; right; auto]. intro I. apply in_app_iff in I. destruct I as [I|I]; [contradiction|]. eapply N2; [left; reflexivity|exact I].
  Qed.
  Lemma dm_tol_val : forall small M rows cols r c, r < rows -> c < cols -> dm_M (dm_fromTol small M rows cols) r c = if small (M r c) then k0 else M r c.
  Proof.
    intros small M rows cols r c Hr Hc. unfold dm_fromTol. cbn [dm_M]. apply (zero_in small).
    - apply nodup_pairs, seq_NoDup.
    - apply in_flat_map. exists r. split; [apply in_seq; lia|]. apply in_map_iff. exists c. split; auto. apply in_seq. lia.
  Qed.
  Lemma dense_any : forall (m : dmat K) A, (forall r c, r < dm_rows m -> c < dm_cols m -> dm_M m r c = A r c) -> dense_behaves m (dm_rows m) (dm_cols m) A.
  Proof.
    intros m A H. split; [auto|]. split; [auto|]. split; [|split; [|split]].
    - intros r c Hr Hc. unfold dm_element. rewrite (proj2 (Nat.ltb_lt _ _) Hr), (proj2 (Nat.ltb_lt _ _) Hc). cbn. rewrite H; auto.
    - eexists. split; [reflexivity|]. auto.
    - intros x y s _ E. unfold dm_right. rewrite E, Nat.eqb_refl. eapply holds_result; [reflexivity|apply holds_assign|]. intros i Hi. unfold mvmul. apply ksum_ext. intros c Hc. rewrite H by auto. auto.
    - intros x y s _ E. unfold dm_left. rewrite E, Nat.eqb_refl. eapply holds_result; [reflexivity|apply holds_assign|]. intros i Hi. unfold mvmul, mtr. apply ksum_ext. intros c Hc. rewrite H by auto. auto.
  Qed.
  (* in place, too *)
  Lemma dense_in_place : forall (m : dmat K) x s,
    (fst (s x) = dm_cols m -> result_is s x (dm_rows m) (fun r => ksum (dm_cols m) (fun c => kmul (dm_M m r c) (snd (s x) c))) (dm_right m x x s)) /\
    (fst (s x) = dm_rows m -> result_is s x (dm_cols m) (fun c => ksum (dm_rows m) (fun r => kmul (dm_M m r c) (snd (s x) r))) (dm_left m x x s)).
  Proof.
    intros m x s. split; intros E; [unfold dm_right|unfold dm_left]; rewrite E, Nat.eqb_refl; (eapply holds_result; [reflexivity|apply holds_assign|intros i Hi; reflexivity]).
  Qed.

  (** ** blocks *)
  Notation pos := (nat * nat * nat * nat)%type.
  Definition in_layout (rbi cbi : list nat) (p : pos) : Prop := let '(br, bc, dr, dc) := p in br < length rbi /\ bc < length cbi /\ dr < bsize rbi br /\ dc < bsize cbi bc.
  Lemma sw_pos_in : forall (m : sbm) br bc dr dc, In (br, bc, dr, dc) (sw_positions m) <-> in_layout (s_rbi m) (s_cbi m) (br, bc, dr, dc).
  Proof.
    intros m br bc dr dc. unfold sw_positions, in_layout. rewrite in_flat_map. split.
    - intros (b & Ib & H). apply in_flat_map in H. destruct H as (a & Ia & H). apply in_flat_map in H. destruct H as (j & Ij & H). apply in_map_iff in H. destruct H as (i & E & Ii). injection E as -> -> -> ->.
      apply in_seq in Ib, Ia, Ij, Ii. lia.
    - intros (A & B & C & D). exists bc. split; [apply in_seq; lia|]. apply in_flat_map. exists br. split; [apply in_seq; lia|]. apply in_flat_map. exists dc. split; [apply in_seq; lia|]. apply in_map_iff. exists dr. split; auto. apply in_seq; lia.
  Qed.
  Lemma sw_loop : forall keep M rbi cbi (L : list pos) d, good d rbi cbi -> Forall (in_layout rbi cbi) L ->
    exists d', fold_left (fun s p => do d <- s; sw_pass keep M d p) L (Ok d) = Ok d' /\ good d' rbi cbi /\
      (forall br bc i j, let v := M (base rbi br + i) (base cbi bc + j) in
         (In (br, bc, i, j) L -> keep v = true -> blk d' br bc i j = v) /\ (~ In (br, bc, i, j) L \/ keep v = false -> blk d' br bc i j = blk d br bc i j)) /\
      (forall br bc, get d' br bc <> None <-> get d br bc <> None \/ exists i j, In (br, bc, i, j) L /\ keep (M (base rbi br + i) (base cbi bc + j)) = true).
  Proof.
    intros keep M rbi cbi. induction L as [|[[[r c] dr] dc] L IH]; intros d G F; cbn [fold_left].
    - exists d. split; [reflexivity|]. split; [exact G|]. split; [intros br bc i j; split; [intros []|auto]|]. intros br bc. split; [auto|]. intros [H|(i & j & I & _)]; [auto|destruct I].
    - inversion F as [|? ? Hp F']; subst. unfold in_layout in Hp. destruct Hp as (H1 & H2 & H3 & H4). cbn [bind]. unfold sw_pass at 2. destruct G as (W & S & E1 & E2). rewrite E1, E2.
      set (v0 := M (base rbi r + dr) (base cbi c + dc)). destruct (keep v0) eqn:Kp.
      + rewrite (alloc_ok d rbi cbi r c (conj W (conj S (conj E1 E2))) H1 H2). cbn [bind].
        destruct (set_ok d rbi cbi r c (fun i j => if (i =? dr) && (j =? dc) then v0 else blk d r c i j) (conj W (conj S (conj E1 E2))) H1 H2) as (d1 & Es & G1 & X). rewrite Es.
        destruct (IH d1 G1 F') as (d' & Ef & G' & V & N). exists d'. split; [exact Ef|]. split; [exact G'|].
        assert (B1 : forall br bc i j, blk d1 br bc i j = if (br =? r) && (bc =? c) && (i =? dr) && (j =? dc) then v0 else blk d br bc i j).
        { intros br bc i j. unfold blk at 1. rewrite X. destruct (Nat.eqb_spec br r) as [->|]; cbn [andb]; [|reflexivity]. destruct (Nat.eqb_spec bc c) as [->|]; cbn [andb]; reflexivity. }
        split.
        * intros br bc i j. destruct (V br bc i j) as (V1 & V2). set (v := M (base rbi br + i) (base cbi bc + j)) in *. split.
          -- intros I Kv. destruct I as [E|I]; [|auto]. injection E as -> -> -> ->.
             assert (Dec : In (br, bc, i, j) L \/ ~ In (br, bc, i, j) L) by (destruct (in_dec (fun a b : pos => ltac:(repeat decide equality)) (br, bc, i, j) L); auto).
             destruct Dec as [I|I]; [auto|]. rewrite V2 by auto. rewrite B1, !Nat.eqb_refl. reflexivity.
          -- intros C. rewrite V2, B1.
             ++ destruct (Nat.eqb_spec br r) as [->|]; cbn [andb]; auto. destruct (Nat.eqb_spec bc c) as [->|]; cbn [andb]; auto. destruct (Nat.eqb_spec i dr) as [->|]; cbn [andb]; auto. destruct (Nat.eqb_spec j dc) as [->|]; auto.
                destruct C as [C|C]; [exfalso; apply C; left; auto|]. unfold v0 in Kp. unfold v in C. congruence.
             ++ destruct C as [C|C]; [left; intro I; apply C; right; auto|auto].
        * intros br bc. rewrite N, X. destruct (Nat.eqb_spec br r) as [->|Nr]; [destruct (Nat.eqb_spec bc c) as [->|Nc]|]; cbn [andb].
          -- split; [intros _; right; exists dr, dc; split; [left; auto|exact Kp]|intros _; left; discriminate].
          -- split; (intros [A|(i & j & I & Kv)]; [auto|right; exists i, j; split; auto]). right; auto. destruct I as [E|I]; auto. injection E as ->. congruence.
          -- split; (intros [A|(i & j & I & Kv)]; [auto|right; exists i, j; split; auto]). right; auto. destruct I as [E|I]; auto. injection E as ->. congruence.
      + destruct (IH d (conj W (conj S (conj E1 E2))) F') as (d' & Ef & G' & V & N). exists d'. split; [exact Ef|]. split; [exact G'|]. split.
        * intros br bc i j. destruct (V br bc i j) as (V1 & V2). set (v := M (base rbi br + i) (base cbi bc + j)) in *. split.
          -- intros [E|I] Kv; [|auto]. injection E as -> -> -> ->. unfold v in Kv. fold v0 in Kp. unfold v0 in Kp. congruence.
          -- intros [C|C]; apply V2; [left; intro I; apply C; right; auto|auto].
        * intros br bc. rewrite N. split; (intros [A|(i & j & I & Kv)]; [auto|right; exists i, j; split; auto]). right; auto. destruct I as [E|I]; auto. injection E as -> -> -> ->. unfold v0 in Kp. congruence.
  Qed.
  Lemma sw_ok : forall keep M (m : sbm) rbi cbi A, represents m rbi cbi A ->
    exists m', sw_fromTol keep M (total rbi) (total cbi) m = Ok m' /\ represents m' rbi cbi (fun r c => if keep (M r c) then M r c else k0) /\
      forall br bc, get m' br bc <> None <-> block_needed keep rbi cbi M br bc.
  Proof.
    intros keep M m rbi cbi A Rm. destruct (clear_ok m rbi cbi A true Rm) as (Rc & Nc & _). specialize (Nc eq_refl). destruct (represents_good _ _ _ _ Rc) as (Gc & _).
    assert (Es : s_rbi m = rbi /\ s_cbi m = cbi) by (destruct Rm as (_ & _ & ? & ? & _); auto). destruct Es as (E1 & E2). unfold sw_fromTol. rewrite E1, E2, !Nat.eqb_refl. cbn [andb negb].
    destruct (sw_loop keep M rbi cbi (sw_positions m) (SBM_Model.clear true m) Gc) as (d' & Ef & G' & V & N).
    { apply Forall_forall. intros [[[br bc] dr] dc] I. apply sw_pos_in in I. rewrite E1, E2 in I. exact I. }
    exists d'. split; [exact Ef|]. split.
    - apply good_represents; [exact G'|]. intros br bc i j H1 H2 H3 H4. destruct (V br bc i j) as (V1 & V2). destruct (keep (M (base rbi br + i) (base cbi bc + j))) eqn:Kp.
      + symmetry. apply V1; auto. apply sw_pos_in. rewrite E1, E2. repeat split; auto.
      + rewrite V2 by auto. rewrite blk_none; auto.
    - intros br bc. rewrite N, Nc. unfold block_needed. split.
      + intros [C|(i & j & I & Kp)]; [congruence|]. apply sw_pos_in in I. rewrite E1, E2 in I. destruct I as (A1 & A2 & A3 & A4). split; auto. split; auto. exists i, j. auto.
      + intros (A1 & A2 & i & j & A3 & A4 & Kp). right. exists i, j. split; auto. apply sw_pos_in. rewrite E1, E2. repeat split; auto.
  Qed.
  Lemma sw_size : forall keep M (m : sbm) rows cols, rows <> total (s_rbi m) \/ cols <> total (s_cbi m) -> sw_fromTol keep M rows cols m = Throw.
  Proof. intros keep M m rows cols H. unfold sw_fromTol. destruct (Nat.eqb_spec rows (total (s_rbi m))); destruct (Nat.eqb_spec cols (total (s_cbi m))); cbn; auto. destruct H; contradiction. Qed.

  (* the loops without aliasing *)
  Lemma axpy_sim : forall (m : sbm) x y s (L : list (nat * nat * mat K)) n v t, x <> y -> holds s y n v t ->
    holds s y n (fold_left (fun y e => seg_add y (base (s_rbi m) (fst (fst e))) (bsize (s_rbi m) (fst (fst e))) (mvmul (bsize (s_cbi m) (snd (fst e))) (snd e) (fun t => snd (s x) (base (s_cbi m) (snd (fst e)) + t)))) L v) (fold_left (sw_axpy m x y) L t).
  Proof.
    intros m x y s. induction L as [|e L IH]; intros n v t N H; cbn [fold_left]; auto. apply IH; auto. destruct H as (A & B & C). unfold sw_axpy. rewrite A, (C x N).
    split; [rewrite assign_same; auto|]. split; [|intros z Nz; rewrite assign_other by auto; auto]. intros i. rewrite assign_same. cbn [snd]. unfold seg_add. rewrite B. reflexivity.
  Qed.
  Lemma atxpy_sim : forall (m : sbm) x y s (L : list (nat * nat * mat K)) n v t, x <> y -> holds s y n v t ->
    holds s y n (fold_left (fun y e => seg_add y (base (s_cbi m) (snd (fst e))) (bsize (s_cbi m) (snd (fst e))) (mvmul (bsize (s_rbi m) (fst (fst e))) (mtr (snd e)) (fun t => snd (s x) (base (s_rbi m) (fst (fst e)) + t)))) L v) (fold_left (sw_atxpy m x y) L t).
  Proof.
    intros m x y s. induction L as [|e L IH]; intros n v t N H; cbn [fold_left]; auto. apply IH; auto. destruct H as (A & B & C). unfold sw_atxpy. rewrite A, (C x N).
    split; [rewrite assign_same; auto|]. split; [|intros z Nz; rewrite assign_other by auto; auto]. intros i. rewrite assign_same. cbn [snd]. unfold seg_add. rewrite B. reflexivity.
  Qed.
  Lemma block_any : forall (m : sbm) rbi cbi A, represents m rbi cbi A -> block_behaves m (total rbi) (total cbi) A.
  Proof.
    intros m rbi cbi A (W & S & E1 & E2 & St). unfold block_behaves. rewrite E1, E2. split; [auto|]. split; [auto|]. split; [|split; [|split]].
    - intros r c Hr Hc. apply element_ok; auto; congruence.
    - eexists. split; [reflexivity|]. intros r c Hr Hc. apply toDense_ok; auto; congruence.
    - intros x y s N E. unfold sw_right. rewrite assign_other by auto. rewrite E, E1, E2, Nat.eqb_refl. eapply holds_result; [reflexivity| |].
      + apply (axpy_sim m x y s (entries m)); [auto|]. destruct (holds_assign s y (total rbi) (snd (s y))) as (H1 & H2 & H3). eapply holds_again. apply holds_assign.
      + intros i Hi. pose proof (axpy_ok m A (snd (s x)) (fun _ => k0) i W St) as F. rewrite E1, E2 in F. specialize (F Hi). unfold axpy_loop in F. cbv zeta in F. rewrite F. unfold mvmul. ring.
    - intros x y s N E. unfold sw_left. rewrite assign_other by auto. rewrite E, E1, E2, Nat.eqb_refl. eapply holds_result; [reflexivity| |].
      + apply (atxpy_sim m x y s (entries m)); [auto|]. eapply holds_again. apply holds_assign.
      + intros i Hi. pose proof (atxpy_ok m A (snd (s x)) (fun _ => k0) i W St) as F. rewrite E1, E2 in F. specialize (F Hi). unfold atxpy_loop in F. cbv zeta in F. rewrite F. unfold mvmul, mtr. ring.
  Qed.
  (* ... and with aliasing: zero *)
  Lemma axpy_zero : forall (m : sbm) x s n (L : list (nat * nat * mat K)) t, holds s x n (fun _ => k0) t -> holds s x n (fun _ => k0) (fold_left (sw_axpy m x x) L t).
  Proof.
    intros m x s n. induction L as [|e L IH]; intros t H; cbn [fold_left]; auto. apply IH. destruct H as (A & B & C). unfold sw_axpy.
    split; [rewrite assign_same; auto|]. split; [|intros z Nz; rewrite assign_other by auto; auto]. intros i. rewrite assign_same. cbn [snd]. unfold seg_add, mvmul. rewrite B.
    rewrite (ksum_ext _ _ (fun _ => k0)); [|intros; rewrite B; ring]. rewrite ksum_zero by auto. destruct (_ && _); ring.
  Qed.
  Lemma block_in_place_zero : forall (m : sbm) x s, total (s_rbi m) = total (s_cbi m) -> fst (s x) = total (s_cbi m) -> result_is s x (total (s_rbi m)) (fun _ => k0) (sw_right m x x s).
  Proof.
    intros m x s Q E. unfold sw_right. rewrite assign_same. cbn [fst]. rewrite Q, Nat.eqb_refl. eapply holds_result; [reflexivity| |intros; reflexivity]. apply axpy_zero. eapply holds_again. apply holds_assign.
  Qed.

  (** ** compressed columns *)
  Lemma columns_sim : forall (m : ccm) (A B : Type) (Rel : A -> B -> Prop) (f : A -> nat -> nat * K -> res A) (g : B -> nat -> nat * K -> res B) n c a b a',
    columns k0 m f c n a = Ok a' -> (forall a b c e a', Rel a b -> f a c e = Ok a' -> exists b', g b c e = Ok b' /\ Rel a' b') -> Rel a b -> exists b', columns k0 m g c n b = Ok b' /\ Rel a' b'.
  Proof.
    intros m A B Rel f g n. induction n as [|n IH]; intros c a b a' E Hs Hab; cbn [columns] in *; [injection E as <-; eauto|]. destruct (column k0 m c) as [col| |]; try discriminate. cbn [bind] in *.
    assert (Fl : forall l (a : A) (b : B) a', Rel a b -> fold_left (fun s e => do x <- s; f x c e) l (Ok a) = Ok a' -> exists b', fold_left (fun s e => do x <- s; g x c e) l (Ok b) = Ok b' /\ Rel a' b').
    { assert (St : forall S (h : S -> nat * K -> res S) l r, (forall v, r <> Ok v) -> forall v, fold_left (fun s e => do x <- s; h x e) l r <> Ok v).
      { intros S h. induction l as [|e l IHl]; intros r Hr v; cbn [fold_left]; auto. apply IHl. intros w. destruct r; cbn; try discriminate. exfalso. eapply Hr. reflexivity. }
      induction l as [|e l IHl]; intros a0 b0 a1 H0 E0; cbn [fold_left bind] in *; [injection E0 as <-; eauto|]. destruct (f a0 c e) as [a2| |] eqn:Ef.
      - destruct (Hs a0 b0 c e a2 H0 Ef) as (b2 & Eg & H2). rewrite Eg. eapply IHl; eauto.
      - exfalso. exact (St _ (fun x e => f x c e) l Throw ltac:(discriminate) a1 E0).
      - exfalso. exact (St _ (fun x e => f x c e) l UB ltac:(discriminate) a1 E0). }
    destruct (fold_left (fun s e => do x <- s; f x c e) col (Ok a)) as [a1| |] eqn:E1; try discriminate. cbn [bind] in E. destruct (Fl col a b a1 Hab E1) as (b1 & -> & H1). cbn [bind]. eapply IH; eauto.
  Qed.
  Lemma column_any : forall (m : ccm) A, CCM_Spec.well_formed m -> CCM_Spec.stands_for k0 m A -> c_diag m = false -> column_behaves m (c_rows m) (c_cols m) A.
  Proof.
    intros m A W St D. assert (U : used_cols m = c_cols m) by (unfold used_cols; rewrite D; auto). split; [auto|]. split; [auto|]. split; [|split; [|split]].
    - intros r c Hr Hc. apply CCM_Proofs.element_ok; auto.
    - apply CCM_Proofs.toDense_ok; auto.
    - intros x y s N E. destruct (CCM_Proofs3.right_ok m A (snd (s x)) W St) as (v & Ev & V). rewrite U in V. unfold rightMultiply in Ev. rewrite Nat.eqb_refl in Ev. cbn [negb] in Ev.
      destruct (columns_sim m _ _ (holds s y (c_rows m)) _ (fun t c (e : nat * K) => if fst e <? c_rows m then Ok (assign t y (fst (t y), fun i => if i =? fst e then kadd (snd (t y) i) (kmul (snd e) (snd (t x) c)) else snd (t y) i)) else UB)
                  (used_cols m) 0 _ (assign s y (c_rows m, fun _ => k0)) v Ev) as (t & Et & Ht).
      + intros a b c e a' (H1 & H2 & H3) Ea. destruct (fst e <? c_rows m); [|discriminate]. injection Ea as <-. eexists. split; [reflexivity|]. rewrite H1, (H3 x N). split; [rewrite assign_same; auto|]. split; [|intros z Nz; rewrite assign_other; auto].
        intros i. rewrite assign_same. cbn [snd]. rewrite H2. auto.
      + apply holds_assign.
      + apply (holds_result s y (c_rows m) v _ _ t); [|exact Ht|intros i Hi; rewrite V; auto]. unfold cc_right. rewrite U, E, Nat.eqb_refl. cbn [negb]. rewrite <- U. exact Et.
    - intros x y s N E. destruct (CCM_Proofs3.left_ok m A (snd (s x)) W St) as (v & Ev & V). rewrite U in V. unfold leftMultiply in Ev. rewrite Nat.eqb_refl in Ev. cbn [negb] in Ev.
      destruct (columns_sim m _ _ (holds s y (used_cols m)) _ (fun t c (e : nat * K) => if fst e <? fst (t x) then Ok (assign t y (fst (t y), fun i => if i =? c then kadd (snd (t y) i) (kmul (snd e) (snd (t x) (fst e))) else snd (t y) i)) else UB)
                  (used_cols m) 0 _ (assign s y (used_cols m, fun _ => k0)) v Ev) as (t & Et & Ht).
      + intros a b c e a' (H1 & H2 & H3) Ea. rewrite (H3 x N), E. destruct (fst e <? c_rows m); [|discriminate]. injection Ea as <-. eexists. split; [reflexivity|]. rewrite H1. split; [rewrite assign_same; auto|]. split; [|intros z Nz; rewrite assign_other; auto].
        intros i. rewrite assign_same. cbn [snd]. rewrite H2. auto.
      + apply holds_assign.
      + rewrite <- U at 1. apply (holds_result s y (used_cols m) v _ _ t); [|exact Ht|intros i Hi; rewrite V; [auto|congruence]]. unfold cc_left. rewrite E, Nat.eqb_refl. cbn [negb]. exact Et.
  Qed.
End MP.

(** ** tolerances over the reals *)
Lemma small_above : forall tol x, small_tol tol x = negb (above_tol tol x).
Proof. intros tol x. unfold small_tol, above_tol. destruct (Rle_dec (Rabs x) tol); destruct (Rlt_dec tol (Rabs x)); auto; lra. Qed.
Lemma cut_keep : forall tol M r c, cut tol M r c = if above_tol tol (M r c) then M r c else 0%R.
Proof. intros tol M r c. unfold cut, above_tol. destruct (Rle_dec (Rabs (M r c)) tol); destruct (Rlt_dec tol (Rabs (M r c))); auto; lra. Qed.
Lemma dense_tol : forall tol M rows cols, dense_behaves (dm_fromTol (small_tol tol) M rows cols) rows cols (cut tol M).
Proof.
  intros tol M rows cols. apply (dense_any (dm_fromTol (small_tol tol) M rows cols)). intros r c Hr Hc. rewrite dm_tol_val by auto. unfold small_tol, cut. destruct (Rle_dec (Rabs (M r c)) tol); auto.
Qed.
Lemma block_tol : forall tol M (m : sbm R) rbi cbi A, represents m rbi cbi A ->
  exists m', sw_fromTol (above_tol tol) M (total rbi) (total cbi) m = Ok m' /\ block_behaves m' (total rbi) (total cbi) (cut tol M) /\
    forall br bc, SBM_Model.get m' br bc <> None <-> block_needed (above_tol tol) rbi cbi M br bc.
Proof.
  intros tol M m rbi cbi A Rm. destruct (sw_ok (above_tol tol) M m rbi cbi A Rm) as (m' & E & Rm' & N). exists m'. split; [exact E|]. split; [|exact N]. apply block_any.
  destruct Rm' as (W & S & E1 & E2 & St). split; auto. split; auto. split; auto. split; auto. intros br bc i j H1 H2 H3 H4. rewrite cut_keep. apply St; auto.
Qed.
Lemma column_tol : forall tol M rows cols (m : ccm R), (0 <= tol)%R -> c_diag m = false ->
  exists m', CCM_Model.fromDense (above_tol (Rabs tol)) M rows cols m = Ok m' /\ column_behaves m' rows cols (cut tol M).
Proof.
  intros tol M rows cols m T D. destruct (CCM_Proofs.fromDense_ok 0%R (above_tol (Rabs tol)) M rows cols m) as (m' & E & W & Me & E1 & E2 & E3 & _). exists m'. split; [exact E|].
  rewrite <- E1, <- E2. apply column_any; [exact W| |congruence]. eapply CCM_Proofs.means_ext; [|exact Me]. intros r c Hr Hc. cbn beta. rewrite cut_keep, Rabs_right by lra. reflexivity.
Qed.
