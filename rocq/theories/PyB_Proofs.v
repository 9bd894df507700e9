(** * Python module: proofs *)
From Coq Require Import Arith Lia List ZArith Bool Sorting.Sorted.
From Verif Require Import Lib_Ring Lib_Res SBM_Model SBM_Spec SBM_Proofs SBM_Proofs2 SBM_Proofs3 PyB_Model PyB_Spec.
From Verif Require Optimizer2_Model Callback_Model.
Import ListNotations.

Section Matrix.
  Context {K : Type} {R : CRing K}.
  Add Ring Kring : kring.
  (* the stored blocks have the sizes of the layout *)
  Definition good_sizes (m : pmat K) (rbi cbi : list nat) : Prop :=
    forall r c, get (p_m m) r c <> None -> p_size m r c = (bsize rbi r, bsize cbi c).
  Definition inv (m : pmat K) (rbi cbi : list nat) (A : mat K) : Prop := represents (p_m m) rbi cbi A /\ good_sizes m rbi cbi.

  Lemma new_inv : forall rbi cbi, layout_ok rbi -> layout_ok cbi -> inv (py_new rbi cbi true) rbi cbi (fun _ _ => k0).
  Proof.
    intros rbi cbi L1 L2. destruct (@fresh_good K rbi cbi L1 L2) as (G & N). split.
    - apply good_represents; [exact G|]. intros. unfold blk. change (p_m (py_new rbi cbi true)) with (fresh rbi cbi : sbm K). rewrite N. auto.
    - intros r c _. auto.
  Qed.
  Lemma in_spec : forall m rbi cbi A r c, inv m rbi cbi A -> (py_in m r c = true <-> within rbi r /\ within cbi c).
  Proof.
    intros m rbi cbi A r c ((W & S & E1 & E2 & _) & _). unfold py_in, within. rewrite E1, E2.
    rewrite andb_true_iff, !negb_true_iff, !orb_false_iff, !Z.ltb_ge, !Z.leb_gt. lia.
  Qed.
  Lemma in_false : forall m rbi cbi A r c, inv m rbi cbi A -> ~ (within rbi r /\ within cbi c) -> py_in m r c = false.
  Proof. intros m rbi cbi A r c Hi N. destruct (py_in m r c) eqn:E; auto. apply (in_spec m rbi cbi A r c Hi) in E. tauto. Qed.
  Lemma to_nat_lt : forall l i, within l i -> Z.to_nat i < length l.
  Proof. unfold within. intros. lia. Qed.

  Lemma fit_ok : forall m rbi cbi A, inv m rbi cbi A -> sizes_fit m = true.
  Proof.
    intros m rbi cbi A ((W & S & E1 & E2 & _) & G). unfold sizes_fit. apply forallb_forall. intros ((r, c), B) H. cbn [fst snd].
    apply (entry_get _ _ _ _ W) in H. rewrite (G r c) by congruence. cbn [fst snd]. rewrite E1, E2, !Nat.eqb_refl. auto.
  Qed.

  Lemma looks : forall m rbi cbi A, inv m rbi cbi A -> looks_like m rbi cbi A.
  Proof.
    intros m rbi cbi A Hi. pose proof Hi as ((W & S & E1 & E2 & St) & G). pose proof (fit_ok _ _ _ _ Hi) as F.
    assert (D : is_matrix (py_toDense m) (total rbi) (total cbi) A).
    { unfold py_toDense. rewrite F, E1, E2. eexists. split; [reflexivity|]. intros p q H1 H2. apply toDense_ok; auto; congruence. }
    assert (At : forall r c, (0 <= r)%Z -> (0 <= c)%Z -> py_at m r c = element (p_m m) (Z.to_nat r) (Z.to_nat c)).
    { intros r c H1 H2. unfold py_at. replace (r <? 0)%Z with false by (symmetry; apply Z.ltb_ge; auto). replace (c <? 0)%Z with false by (symmetry; apply Z.ltb_ge; auto). cbn [orb]. cbv zeta.
      destruct (get _ _ _) eqn:Eg; [|auto]. destruct (Z.to_nat r <? total (s_rbi (p_m m))) eqn:Er; cbn [andb]; [|auto]. destruct (Z.to_nat c <? total (s_cbi (p_m m))) eqn:Ec; cbn [andb]; [|auto].
      rewrite Nat.ltb_lt in Er, Ec. rewrite total_base in Er, Ec. destruct (tile_exists _ _ _ (wf_rows _ W) (le_n _) Er) as (br & i & R1 & R2 & R3).
      destruct (tile_exists _ _ _ (wf_cols _ W) (le_n _) Ec) as (bc & j & C1 & C2 & C3). rewrite R3, C3 in *.
      rewrite (upper_bound_ok _ br i (wf_rows _ W) R1 R2) in *. rewrite (upper_bound_ok _ bc j (wf_cols _ W) C1 C2) in *.
      rewrite (G br bc) by congruence. cbn [fst snd].
      replace (base (s_rbi (p_m m)) br + i - base (s_rbi (p_m m)) br) with i by lia. replace (base (s_cbi (p_m m)) bc + j - base (s_cbi (p_m m)) bc) with j by lia.
      rewrite <- E1, <- E2. rewrite (proj2 (Nat.ltb_lt _ _) R2), (proj2 (Nat.ltb_lt _ _) C2). auto. }
    constructor.
    - exact D.
    - intros Sq. destruct D as (D & E & H). unfold py_toDenseSymmetric. rewrite E. cbn [bind]. rewrite (proj2 (Nat.eqb_eq _ _) Sq). eexists. split; [reflexivity|].
      intros p q Hp Hq. unfold symm. destruct (p <=? q); apply H; lia.
    - intros r c Hr Hc. rewrite At by lia. apply element_ok; auto; [rewrite E1|rewrite E2]; lia.
    - intros r c N. destruct (Z.ltb_spec r 0) as [H|H]; [unfold py_at; apply Z.ltb_lt in H; rewrite H; auto|]. destruct (Z.ltb_spec c 0) as [H'|H']; [unfold py_at; apply Z.ltb_lt in H'; rewrite H', orb_true_r; auto|].
      rewrite At by auto. apply element_out. rewrite E1, E2. lia.
    - intros r c Hr Hc. unfold py_getBlock. rewrite (proj2 (in_spec _ _ _ _ r c Hi)) by auto. cbv zeta. pose proof (to_nat_lt _ _ Hr) as Lr. pose proof (to_nat_lt _ _ Hc) as Lc.
      assert (B : forall i j, i < bsize rbi (Z.to_nat r) -> j < bsize cbi (Z.to_nat c) -> A (base rbi (Z.to_nat r) + i) (base cbi (Z.to_nat c) + j) = blk (p_m m) (Z.to_nat r) (Z.to_nat c) i j).
      { intros i j Hi' Hj'. rewrite <- E1, <- E2 in *. apply St; auto. }
      unfold blk in B. destruct (get (p_m m) (Z.to_nat r) (Z.to_nat c)) eqn:Eg.
      + rewrite G by congruence. cbn [fst snd]. eexists. split; [reflexivity|]. intros. symmetry. auto.
      + rewrite E1, E2. eexists. split; [reflexivity|]. intros. symmetry. auto.
    - intros r c N. unfold py_getBlock. rewrite (in_false _ _ _ _ _ _ Hi N). auto.
  Qed.

  (* the dense matrix with one block replaced *)
  Definition overlay (rbi cbi : list nat) (A : mat K) (r c : nat) (B : mat K) : mat K :=
    fun p q => if (base rbi r <=? p) && (p <? base rbi r + bsize rbi r) && (base cbi c <=? q) && (q <? base cbi c + bsize cbi c) then B (p - base rbi r) (q - base cbi c) else A p q.
  Lemma overlay_at : forall rbi cbi A r c B br bc i j, layout_ok rbi -> layout_ok cbi -> r < length rbi -> c < length cbi -> br < length rbi -> bc < length cbi ->
    i < bsize rbi br -> j < bsize cbi bc ->
    overlay rbi cbi A r c B (base rbi br + i) (base cbi bc + j) = if (br =? r) && (bc =? c) then B i j else A (base rbi br + i) (base cbi bc + j).
  Proof.
    intros rbi cbi A r c B br bc i j L1 L2 Hr Hc H1 H2 H3 H4. unfold overlay.
    destruct (Nat.eqb_spec br r) as [->|Nr]; cbn [andb].
    - replace (base rbi r <=? base rbi r + i) with true by (symmetry; apply Nat.leb_le; lia). replace (base rbi r + i <? base rbi r + bsize rbi r) with true by (symmetry; apply Nat.ltb_lt; lia). cbn [andb].
      destruct (Nat.eqb_spec bc c) as [->|Nc].
      + replace (base cbi c <=? base cbi c + j) with true by (symmetry; apply Nat.leb_le; lia). replace (base cbi c + j <? base cbi c + bsize cbi c) with true by (symmetry; apply Nat.ltb_lt; lia). cbn [andb].
        f_equal; lia.
      + destruct ((base cbi c <=? base cbi bc + j) && (base cbi bc + j <? base cbi c + bsize cbi c)) eqn:E; [|auto]. exfalso. rewrite andb_true_iff, Nat.leb_le, Nat.ltb_lt in E.
        destruct (tile_unique cbi bc c j (base cbi bc + j - base cbi c) L2 H2 Hc H4) as (Q & _); lia.
    - destruct ((base rbi r <=? base rbi br + i) && (base rbi br + i <? base rbi r + bsize rbi r)) eqn:E; cbn [andb]; [|auto]. exfalso. rewrite andb_true_iff, Nat.leb_le, Nat.ltb_lt in E.
      destruct (tile_unique rbi br r i (base rbi br + i - base rbi r) L1 H1 Hr H3) as (Q & _); lia.
  Qed.

  Lemma step_ok : forall m rbi cbi A o, inv m rbi cbi A -> fits rbi cbi o ->
    exists A', effect rbi cbi A o A' /\ answer rbi cbi o (fst (mstep m o)) /\ inv (snd (mstep m o)) rbi cbi A'.
  Proof.
    intros m rbi cbi A o Hi F. pose proof Hi as ((W & S & E1 & E2 & St) & G). destruct o as [r c n k B|dealloc].
    - cbn [mstep]. unfold py_setBlock. destruct (py_in m r c) eqn:Ein.
      + apply (in_spec _ _ _ _ _ _ Hi) in Ein. destruct Ein as (Hr & Hc). pose proof (to_nat_lt _ _ Hr) as Lr. pose proof (to_nat_lt _ _ Hc) as Lc.
        exists (overlay rbi cbi A (Z.to_nat r) (Z.to_nat c) B). destruct (F Hr Hc) as (-> & ->).
        set (r' := Z.to_nat r) in *. set (c' := Z.to_nat c) in *. cbv zeta.
        assert (Gd : good (p_m m) rbi cbi) by (split; auto).
        destruct (set_ok (p_m m) rbi cbi r' c' B Gd Lr Lc) as (d & Ed & Gd' & Q). unfold setBlock in Ed. rewrite (alloc_ok _ rbi cbi) in Ed by auto. cbn [bind] in Ed. injection Ed as Ed.
        cbn [snd fst]. rewrite Ed, S.
        assert (L1 : layout_ok rbi) by (rewrite <- E1; apply W). assert (L2 : layout_ok cbi) by (rewrite <- E2; apply W).
        split; [|].
        { cbn [effect]. split; [|tauto]. intros _ _ p q Hp Hq. fold r' c'. split.
          - intros i j H3 H4 -> ->. rewrite overlay_at by auto. rewrite !Nat.eqb_refl. auto.
          - intros N. unfold overlay. destruct (_ && _ && _ && _) eqn:E; [|auto]. rewrite !andb_true_iff, !Nat.leb_le, !Nat.ltb_lt in E. lia. }
        assert (Iv : inv (mkPmat d (fun r0 c0 => if (r0 =? r') && (c0 =? c') then (bsize rbi r', bsize cbi c') else p_size m r0 c0)) rbi cbi (overlay rbi cbi A r' c' B)).
        { split; cbn [p_m p_size].
          - apply good_represents; [exact Gd'|]. intros br bc i j H1 H2 H3 H4. rewrite overlay_at by auto. unfold blk. rewrite Q. destruct ((br =? r') && (bc =? c')); [auto|].
            rewrite <- E1, <- E2 in *. apply St; auto.
          - intros r0 c0. cbn [p_m p_size]. rewrite Q. destruct (Nat.eqb_spec r0 r') as [->|]; cbn [andb]; [destruct (Nat.eqb_spec c0 c') as [->|]|]; auto; apply G. }
        destruct (get (p_m m) r' c'); cbn [fst snd]; (split; [split; [auto|tauto]|exact Iv]).
      + assert (N : ~ (within rbi r /\ within cbi c)) by (intros X; apply (in_spec _ _ _ _ _ _ Hi) in X; congruence).
        exists A. cbn [fst snd effect answer]. split; [split; [tauto|auto]|]. split; [split; [tauto|auto]|exact Hi].
    - exists (fun _ _ => k0). cbn [mstep fst snd effect answer]. split; [auto|]. split; [auto|]. destruct (clear_ok (p_m m) rbi cbi A dealloc (proj1 Hi)) as (Rc & C1 & C2). split; [exact Rc|].
      intros r c. cbn [py_clear p_m p_size]. destruct dealloc; [rewrite C1 by auto; congruence|]. intros N. apply G. intros X. apply N. apply C2; auto.
  Qed.

  Lemma run_ok : forall l m rbi cbi A, inv m rbi cbi A -> Forall (fits rbi cbi) l ->
    exists A', effects rbi cbi A l A' /\ Forall2 (answer rbi cbi) l (fst (mrun m l)) /\ inv (snd (mrun m l)) rbi cbi A'.
  Proof.
    induction l as [|o l IH]; intros m rbi cbi A Hi F.
    - exists A. split; [constructor|]. split; [constructor|exact Hi].
    - inversion F as [|? ? F1 F2]; subst. destruct (step_ok m rbi cbi A o Hi F1) as (A1 & X1 & X2 & X3). destruct (IH (snd (mstep m o)) rbi cbi A1 X3 F2) as (A2 & Y1 & Y2 & Y3).
      cbn [mrun]. destruct (mstep m o) as (x, m1). cbn [fst snd] in *. destruct (mrun m1 l) as (xs, m2). cbn [fst snd] in *. exists A2. split; [econstructor; eauto|]. split; [constructor; auto|exact Y3].
  Qed.
  Lemma matrix_ok : forall rbi cbi (l : list (mop K)), layout_ok rbi -> layout_ok cbi -> Forall (fits rbi cbi) l ->
    exists A, effects rbi cbi (fun _ _ => k0) l A /\ Forall2 (answer rbi cbi) l (fst (mrun (py_new rbi cbi true) l)) /\ looks_like (snd (mrun (py_new rbi cbi true) l)) rbi cbi A.
  Proof.
    intros rbi cbi l L1 L2 F. destruct (run_ok l _ rbi cbi _ (new_inv rbi cbi L1 L2) F) as (A & H1 & H2 & H3). exists A. split; auto. split; auto. apply looks; auto.
  Qed.
End Matrix.

(** ** Callbacks *)
Import Callback_Model.
Definition hits (e : nat) (o : option nat) : bool := match o with Some e' => Nat.eqb e e' | None => false end.
Lemma add_each_ok : forall l c r, ~ In None l -> exists r', add_each l c r = (Ok tt, r') /\ forall e, r' e = r e ++ repeat c (length (filter (hits e) l)).
Proof.
  induction l as [|o l IH]; intros c r N; cbn [add_each].
  - exists r. split; auto. intros. cbn. rewrite app_nil_r. auto.
  - destruct o as [e0|]; [|exfalso; apply N; left; auto]. cbn [event2typeid]. destruct (IH c (add [e0] c r)) as (r' & E & H); [intros X; apply N; right; auto|].
    exists r'. split; auto. intros e. rewrite H. cbn [add]. unfold Callback_Model.upd. cbn [filter hits]. destruct (Nat.eqb_spec e e0) as [->|Ne].
    + cbn [length repeat]. rewrite <- app_assoc. auto.
    + auto.
Qed.
Lemma add_each_bad : forall l c r, In None l -> fst (add_each l c r) = Throw.
Proof. induction l as [|o l IH]; intros c r H; [destruct H|]. destruct o as [e|]; cbn; [|auto]. destruct H as [H|H]; [discriminate|]. apply IH; auto. Qed.

(* what an operation adds to the callbacks of an event *)
Definition adds (e : nat) (o : cop) : list nat := match o with CAdd true a c => repeat c (length (filter (hits e) (named a))) | _ => [] end.
Lemma cstep_ok : forall o r, clean o -> (fst (cstep r o) = Ok tt <-> proper o) /\ (~ proper o -> cstep r o = (Throw, r)) /\
  forall e, snd (cstep r o) e = (if wipes e o then [] else r e) ++ adds e o.
Proof.
  intros o r C. destruct o as [b a c|x|].
  - destruct b; [|cbn; split; [split; [discriminate|intros (Q & _); discriminate]|split; [auto|intros; rewrite app_nil_r; auto]]].
    destruct a as [x|l].
    + destruct x as [e0|]; cbn.
      * split; [|split]; [split; auto; intros _; split; auto; intros [X|[]]; discriminate|intros N; exfalso; apply N; split; auto; intros [X|[]]; discriminate|].
        intros e. unfold Callback_Model.upd. destruct (Nat.eqb_spec e e0) as [->|]; cbn; [auto|rewrite app_nil_r; auto].
      * split; [|split]; [split; [discriminate|intros (_ & X); exfalso; apply X; left; auto]|auto|intros; rewrite app_nil_r; auto].
    + cbn in C. destruct (add_each_ok l c r C) as (r' & E & H). cbn [cstep py_add negb wipes adds named]. rewrite E. cbn [fst snd]. split; [split; auto; intros _; split; auto|]. split; [intros N; exfalso; apply N; split; auto|].
      exact H.
  - destruct x as [e0|]; cbn.
    + split; [split; auto; discriminate|]. split; [intros N; exfalso; apply N; discriminate|]. intros e. unfold clear, Callback_Model.upd. rewrite app_nil_r. destruct (Nat.eqb e e0); auto.
    + split; [split; [discriminate|congruence]|]. split; [auto|]. intros. rewrite app_nil_r. auto.
  - cbn. repeat split; auto; try tauto.
Qed.
Lemma present_cons : forall e o t, present e (o :: t) = (if existsb (wipes e) t then [] else adds e o) ++ present e t.
Proof.
  intros e o t. destruct o as [[|] a c|x|]; cbn [present adds]; auto; destruct (existsb (wipes e) t); auto.
Qed.
Lemma crun_ok : forall h r, Forall clean h ->
  Forall2 (fun o x => (proper o -> x = Ok tt) /\ (~ proper o -> x = Throw)) h (fst (crun r h)) /\
  forall e, snd (crun r h) e = (if existsb (wipes e) h then [] else r e) ++ present e h.
Proof.
  induction h as [|o h IH]; intros r F; [cbn; split; [constructor|intros; rewrite app_nil_r; auto]|].
  inversion F as [|? ? F1 F2]; subst. destruct (cstep_ok o r F1) as (H1 & H2 & H3). cbn [crun]. destruct (cstep r o) as (x, r1) eqn:E. destruct (IH r1 F2) as (J1 & J2). destruct (crun r1 h) as (xs, r2).
  cbn [fst snd] in *. split; [constructor; auto; split; [apply H1|intros N; specialize (H2 N); congruence]|]. intros e. rewrite J2, present_cons, H3. cbn [existsb].
  destruct (wipes e o); cbn [orb app]; destruct (existsb (wipes e) h); cbn [app]; auto; rewrite <- ?app_assoc; auto.
Qed.
(* all callbacks of an event run, in order, and none of them can stop the optimisation *)
Lemma issue_void : forall W (f : nat -> nat -> W -> proceed * W) e l w,
  issue_list (fun c => py_lambda (f c)) e l w = (CONTINUE, fold_left (fun w c => snd (f c e w)) l w, l).
Proof. induction l as [|c l IH]; intros w; [auto|]. cbn [issue_list py_lambda call fold_left]. rewrite IH. auto. Qed.
Lemma callbacks_ok : forall W (f : nat -> nat -> W -> proceed * W) h, Forall clean h ->
  Forall2 (fun o x => (proper o -> x = Ok tt) /\ (~ proper o -> x = Throw)) h (fst (crun empty_registry h)) /\
  forall e w, issueCallback (fun c => py_lambda (f c)) (snd (crun empty_registry h)) e w = (CONTINUE, fold_left (fun w c => snd (f c e w)) (present e h) w, present e h) /\
    py_num (Some e) (snd (crun empty_registry h)) = Ok (length (present e h)).
Proof.
  intros W f h F. destruct (crun_ok h empty_registry F) as (H1 & H2). split; auto. intros e w.
  assert (E : snd (crun empty_registry h) e = present e h) by (rewrite H2; destruct (existsb (wipes e) h); auto).
  unfold issueCallback. rewrite E. split; [apply issue_void|]. cbn. unfold numCallbacks. rewrite E. auto.
Qed.
