(** * Proofs for the conjugate gradient solver *)
From Coq Require Import Arith Lia List ZArith Bool Sorting.Sorted.
From Verif Require Import Lib_Ring Lib_Res SBM_Model SBM_Spec SBM_Proofs SBM_Proofs2 SBM_Proofs3 Schur_Model Schur_Proofs Cov_Model PCG_Model PCG_Spec.
Import ListNotations.

Section Proofs.
  Context {K : Type} {R : CRing K}.
  Add Ring Kring_pcg : (@kring K R).
  Variable div : K -> K -> K.
  Variables leb gtb : K -> K -> bool.
  Variable half : K.
  Variable inv : nat -> mat K -> mat K.

  Lemma scan_ok : forall i (c : bmap K) B, StronglySorted lt (map fst c) -> find i c = Some B -> scan i c = (map fst (above i c), Some B).
  Proof.
    intros i c B. induction c as [|[r B0] c IH]; intros S F; cbn [find] in F; [discriminate|]. cbn [map fst] in S. apply StronglySorted_inv in S. destruct S as [S Fo].
    cbn [scan above fst]. rewrite (Nat.eqb_sym r i). destruct (Nat.eqb_spec i r) as [->|N].
    - injection F as ->. rewrite Nat.ltb_irrefl. auto.
    - rewrite (IH S F). assert (r < i). { apply find_in in F; auto. rewrite Forall_forall in Fo. apply Fo. apply (in_map fst) in F. exact F. }
      rewrite (proj2 (Nat.ltb_lt _ _)) by auto. auto.
  Qed.

  Variables (A : sbm K) (l : list nat) (S : mat K).
  Hypothesis HU : holds_upper A l S.
  Hypothesis Sy : forall p q, p < total l -> q < total l -> S p q = S q p.
  Hypothesis Di : diagonal_stored A.
  Let n := total l. Let m := length l.
  Lemma wfA : well_formed A. Proof. apply HU. Qed.
  Lemma rbiA : s_rbi A = l. Proof. apply HU. Qed.
  Lemma cbiA : s_cbi A = l. Proof. apply HU. Qed.
  Lemma lenA : length (s_cols A) = m. Proof. rewrite (wf_len _ wfA), cbiA. auto. Qed.
  Lemma loA : layout_ok l. Proof. rewrite <- rbiA. apply wfA. Qed.
  Lemma diag_get : forall i, i < m -> get A i i = Some (blk A i i).
  Proof. intros i Hi. pose proof (Di i ltac:(rewrite lenA; auto)) as D. unfold blk. destruct (get A i i); auto. congruence. Qed.
  Lemma scan_col : forall i, i < m -> scan i (nth i (s_cols A) []) = (map fst (above i (nth i (s_cols A) [])), Some (blk A i i)).
  Proof. intros i Hi. apply scan_ok; [apply wfA|]. apply diag_get. auto. Qed.
  Lemma flat_map_ext_in : forall A B (f g : A -> list B) l, (forall x, In x l -> f x = g x) -> flat_map f l = flat_map g l.
  Proof. intros T B f g l0. induction l0 as [|x l0 IH]; intros H; cbn; auto. rewrite H by (left; auto). f_equal. apply IH. intros; apply H; right; auto. Qed.
  Lemma diag_eq : diag_of A = map (fun i => (bsize l i, blk A i i)) (seq 0 m).
  Proof.
    unfold diag_of. rewrite lenA, cbiA. rewrite (flat_map_ext_in _ _ _ (fun i => [(bsize l i, blk A i i)])).
    - clear. induction (seq 0 m) as [|a s IH]; [reflexivity|]. cbn. rewrite IH. reflexivity.
    - intros i Hi. apply in_seq in Hi. rewrite scan_col by lia. auto.
  Qed.
  Definition mkp i (e : nat * mat K) : ptr := mkPtr (base l (fst e)) (base l i) (fst e) i.
  Lemma index_eq : index_of A = flat_map (fun i => map (mkp i) (above i (nth i (s_cols A) []))) (seq 0 m).
  Proof.
    unfold index_of. rewrite lenA, cbiA, rbiA. apply flat_map_ext_in. intros i Hi. apply in_seq in Hi. rewrite scan_col by lia. cbn [fst]. rewrite map_map. auto.
  Qed.

  Lemma multDiag_ok : forall (Mb : nat -> mat K) src dest b i, b < m -> i < bsize l b ->
    multDiag l (map (fun i => (bsize l i, Mb i)) (seq 0 m)) src dest (base l b + i) = mvmul (bsize l b) (Mb b) (fun t => src (base l b + t)) i.
  Proof.
    intros Mb src dest b i Hb Hi. unfold multDiag. rewrite map_length, seq_length.
    assert (P : forall k, k <= m -> fold_left (fun y i => let e := nth i (map (fun i => (bsize l i, Mb i)) (seq 0 m)) (0, fun _ _ => k0) in seg_set y (base l i) (fst e) (mvmul (fst e) (snd e) (fun t => src (base l i + t)))) (seq 0 k) dest (base l b + i) =
      if b <? k then mvmul (bsize l b) (Mb b) (fun t => src (base l b + t)) i else dest (base l b + i)).
    { induction k as [|k IH]; intros Hk; auto. rewrite seq_S, fold_left_app. cbn [fold_left plus].
      rewrite (nth_indep _ (0, fun _ _ => k0) (bsize l 0, Mb 0)) by (rewrite map_length, seq_length; lia). rewrite (map_nth (fun i => (bsize l i, Mb i))), seq_nth by lia. cbn [plus fst snd].
      unfold seg_set at 1. rewrite tile_test by (auto using loA; lia). destruct (Nat.eqb_spec k b) as [->|N].
      - rewrite (proj2 (Nat.ltb_lt b (Datatypes.S b))) by lia. replace (base l b + i - base l b) with i by lia. auto.
      - etransitivity; [apply IH; lia|]. destruct (Nat.ltb_spec b k), (Nat.ltb_spec b (Datatypes.S k)); auto; lia. }
    etransitivity; [apply P; lia|]. rewrite (proj2 (Nat.ltb_lt _ _) Hb). auto.
  Qed.

  Definition contrib (src : vec K) b i (p : ptr) : K :=
    kadd (if b =? t_br p then mvmul (bsize l (t_bc p)) (blk A (t_br p) (t_bc p)) (fun t => src (base l (t_bc p) + t)) i else k0)
         (if b =? t_bc p then mvmul (bsize l (t_br p)) (mtr (blk A (t_br p) (t_bc p))) (fun t => src (base l (t_br p) + t)) i else k0).
  Lemma off_loop : forall src L y, (forall p, In p L -> exists i e, i < m /\ In e (above i (nth i (s_cols A) [])) /\ p = mkp i e) ->
    exists y', fold_left (fun x p => do y <- x;
      match get A (t_br p) (t_bc p) with
      | None => UB
      | Some B =>
        let m := bsize (s_rbi A) (t_br p) in let n := bsize (s_cbi A) (t_bc p) in
        let y := seg_add y (t_row p) m (mvmul n B (fun t => src (t_col p + t))) in
        Ok (seg_add y (t_col p) n (mvmul m (mtr B) (fun t => src (t_row p + t))))
      end) L (Ok y) = Ok y' /\ forall b i, b < m -> i < bsize l b -> y' (base l b + i) = kadd (y (base l b + i)) (lsum L (contrib src b i)).
  Proof.
    intros src. induction L as [|p L IH]; intros y H; cbn [fold_left].
    - exists y. split; auto. intros. cbn [lsum]. ring.
    - destruct (H p) as (c & e & Hc & He & ->); [left; auto|]. destruct (above_sorted c _ (wf_keys _ wfA c)) as (_ & Ab). destruct (Ab e He) as (He1 & He2).
      assert (Ge : get A (fst e) c = Some (blk A (fst e) c)).
      { destruct e as [r B]. cbn [fst] in *. assert (G : get A r c = Some B) by (apply find_in; [apply wfA|auto]). unfold blk. rewrite G. auto. }
      cbn [bind t_br t_bc t_row t_col mkp]. rewrite Ge, rbiA, cbiA. cbn zeta.
      edestruct IH as (y' & E & Xy); [intros q Hq; apply H; right; exact Hq|]. rewrite rbiA, cbiA in E. exists y'. split; [exact E|]. intros b i Hb Hi. rewrite Xy by auto. cbn [lsum]. unfold contrib at 2. cbn [t_br t_bc mkp].
      unfold seg_add. rewrite (tile_test l c b i), (tile_test l (fst e) b i) by (auto using loA; unfold m in *; lia). rewrite (Nat.eqb_sym c b), (Nat.eqb_sym (fst e) b).
      destruct (Nat.eqb_spec b (fst e)) as [E2|N2]; destruct (Nat.eqb_spec b c) as [E1|N1]; try lia.
      + rewrite <- E2. replace (base l b + i - base l b) with i by lia. ring.
      + rewrite <- E1. replace (base l b + i - base l b) with i by lia. ring.
      + ring.
  Qed.

  Lemma ksum_if : forall k b (g : nat -> K), ksum k (fun r => if b =? r then g r else k0) = if b <? k then g b else k0.
  Proof.
    intros k b g. destruct (Nat.ltb_spec b k) as [H|H].
    - rewrite (ksum_single k b) by (auto; intros j Hj Nj; rewrite (proj2 (Nat.eqb_neq b j)); auto). rewrite Nat.eqb_refl. auto.
    - apply ksum_zero. intros j Hj. rewrite (proj2 (Nat.eqb_neq b j)) by lia. auto.
  Qed.
  Lemma mult_ok : forall src dest, exists q, pcg_mult A (index_of A) src dest = Ok q /\ forall p, p < n -> q p = mvmul n S src p.
  Proof.
    intros src dest. unfold pcg_mult. rewrite diag_eq.
    destruct (off_loop src (index_of A) (multDiag (s_cbi A) (map (fun i => (bsize l i, blk A i i)) (seq 0 m)) src dest)) as (q & E & Xq).
    { intros p Hp. rewrite index_eq in Hp. apply in_flat_map in Hp. destruct Hp as (i & Hi & Hp). apply in_seq in Hi. apply in_map_iff in Hp. destruct Hp as (e & <- & He). exists i, e. split; [lia|auto]. }
    exists q. split; auto. intros p Hp. unfold n in Hp. rewrite total_base in Hp. destruct (tile_exists l p m loA (le_n _) Hp) as (b & i & Hb & Hi & ->). rewrite Xq, cbiA, multDiag_ok by auto.
    rewrite index_eq, lsum_flat_map, lsum_seq.
    assert (U : forall r c i j, r <= c -> c < m -> i < bsize l r -> j < bsize l c -> blk A r c i j = S (base l r + i) (base l c + j)).
    { intros r c i0 j Hrc Hc Hi0 Hj. destruct HU as (_ & _ & _ & _ & X). rewrite X by (auto; unfold m in *; lia). rewrite (proj2 (Nat.leb_le _ _) Hrc). auto. }
    assert (Tl : forall b, b < m -> forall i, i < bsize l b -> base l b + i < n).
    { intros b0 Hb0 i0 Hi0. unfold n. rewrite total_base. pose proof (base_mono l (Datatypes.S b0) (length l) loA ltac:(unfold m in *; lia) ltac:(lia)) as M. rewrite base_S in M by (auto using loA). lia. }
    set (g := fun c => mvmul (bsize l c) (blk A b c) (fun t => src (base l c + t)) i). set (h := fun r => mvmul (bsize l r) (mtr (blk A r b)) (fun t => src (base l r + t)) i).
    assert (C : forall c, c < m -> lsum (map (mkp c) (above c (nth c (s_cols A) []))) (contrib src b i) = kadd (if b <? c then g c else k0) (if b =? c then ksum c h else k0)).
    { intros c Hc. rewrite lsum_map. destruct (above_sorted c _ (wf_keys _ wfA c)) as (So & Ab).
      transitivity (lsum (above c (nth c (s_cols A) [])) (fun e => (fun r B => kadd (if b =? r then mvmul (bsize l c) B (fun t => src (base l c + t)) i else k0) (if b =? c then mvmul (bsize l r) (mtr B) (fun t => src (base l r + t)) i else k0)) (fst e) (snd e))).
      { apply lsum_ext. intros e He. destruct (Ab e He) as (He1 & He2). unfold contrib. cbn [t_br t_bc mkp].
        assert (Bl : blk A (fst e) c = snd e). { destruct e as [r B]. cbn [fst snd] in *. assert (G : get A r c = Some B) by (apply find_in; [apply wfA|auto]). unfold blk. rewrite G. auto. }
        rewrite Bl. auto. }
      rewrite (lsum_column c _ (fun r B => kadd (if b =? r then mvmul (bsize l c) B (fun t => src (base l c + t)) i else k0) (if b =? c then mvmul (bsize l r) (mtr B) (fun t => src (base l r + t)) i else k0)) So); [|intros r B HIn; apply (Ab (r, B)); auto].
      transitivity (ksum c (fun r => kadd (if b =? r then g c else k0) (if b =? c then h r else k0))).
      { apply ksum_ext. intros r Hr. rewrite find_above by apply wfA. rewrite (proj2 (Nat.ltb_lt _ _) Hr). fold (get A r c).
        rewrite (if_blk A r c (fun B => kadd (if b =? r then mvmul (bsize l c) B (fun t => src (base l c + t)) i else k0) (if b =? c then mvmul (bsize l r) (mtr B) (fun t => src (base l r + t)) i else k0))).
        - unfold g, h. f_equal; [destruct (Nat.eqb_spec b r) as [->|]; auto|destruct (Nat.eqb_spec b c) as [->|]; auto].
        - assert (Z1 : mvmul (bsize l c) (fun _ _ => k0) (fun t => src (base l c + t)) i = k0) by (unfold mvmul; apply ksum_zero; intros; ring).
          assert (Z2 : mvmul (bsize l r) (mtr (fun _ _ => k0)) (fun t => src (base l r + t)) i = k0) by (unfold mvmul, mtr; apply ksum_zero; intros; ring).
          rewrite Z1, Z2. destruct (b =? r), (b =? c); ring. }
      rewrite ksum_add. f_equal.
      - rewrite (ksum_if c b (fun _ => g c)). auto.
      - destruct (b =? c); auto. apply ksum_zero. auto. }
    rewrite (ksum_ext m _ (fun c => kadd (if b <? c then g c else k0) (if b =? c then ksum c h else k0))) by (intros; apply C; auto).
    rewrite ksum_add. rewrite (ksum_if m b (fun c => ksum c h)). rewrite (proj2 (Nat.ltb_lt _ _) Hb).
    assert (E2 : ksum b h = ksum m (fun c => if c <? b then h c else k0)).
    { replace m with (b + (m - b)) by lia. rewrite ksum_split. rewrite (ksum_zero (m - b)) by (intros k Hk; rewrite (proj2 (Nat.ltb_ge (b + k) b)) by lia; auto).
      rewrite (ksum_ext b (fun c => if c <? b then h c else k0) h) by (intros k Hk; rewrite (proj2 (Nat.ltb_lt k b)) by lia; auto). ring. }
    rewrite E2. set (dg := mvmul (bsize l b) (blk A b b) (fun t => src (base l b + t)) i).
    assert (E3 : dg = ksum m (fun c => if b =? c then dg else k0)) by (rewrite (ksum_if m b (fun _ => dg)), (proj2 (Nat.ltb_lt _ _) Hb); auto).
    rewrite E3. rewrite <- !ksum_add. unfold mvmul at 1. unfold n. rewrite total_base, (ksum_tile l (length l)) by (auto using loA). apply ksum_ext. intros c Hc.
    destruct (Nat.lt_trichotomy b c) as [G|[G|G]].
    - rewrite (proj2 (Nat.eqb_neq b c)), (proj2 (Nat.ltb_lt b c)), (proj2 (Nat.ltb_ge c b)) by lia. unfold g, mvmul. transitivity (ksum (bsize l c) (fun t => kmul (blk A b c i t) (src (base l c + t)))); [ring|]. apply ksum_ext. intros t Ht. rewrite U by (auto; lia). auto.
    - subst c. rewrite Nat.eqb_refl, Nat.ltb_irrefl. unfold dg, mvmul. transitivity (ksum (bsize l b) (fun t => kmul (blk A b b i t) (src (base l b + t)))); [ring|]. apply ksum_ext. intros t Ht. rewrite U by (auto; lia). auto.
    - rewrite (proj2 (Nat.eqb_neq b c)), (proj2 (Nat.ltb_ge b c)), (proj2 (Nat.ltb_lt c b)) by lia. unfold h, mvmul, mtr. transitivity (ksum (bsize l c) (fun t => kmul (blk A c b t i) (src (base l c + t)))); [ring|]. apply ksum_ext. intros t Ht. rewrite U by (auto; lia). rewrite (Sy (base l c + t)) by (apply Tl; auto). auto.
  Qed.

  Lemma precond_ok : forall src dest, preconditioned l inv A src (multDiag (s_cbi A) (precond inv A) src dest).
  Proof. intros src dest b i Hb Hi. unfold precond. rewrite diag_eq, map_map, cbiA. cbn [fst snd]. apply (multDiag_ok (fun i => inv (bsize l i) (blk A i i))); auto. Qed.

  (* the invariant of the loop *)
  Definition honest (b : vec K) (st : iter) : Prop :=
    (forall p, p < n -> i_r st p = residual n S b (i_x st) p) /\ exists z, preconditioned l inv A (i_r st) z /\ i_dn st = vdot n (i_r st) z.
  Lemma start_honest : forall b, honest b (pcg_start A (precond inv A) b).
  Proof.
    intros b. unfold pcg_start. split; cbn [i_r i_x i_dn].
    - intros p Hp. unfold residual, mvmul. rewrite ksum_zero; [ring|]. intros. ring.
    - eexists. split; [apply precond_ok|]. rewrite rbiA. reflexivity.
  Qed.
  Lemma step_honest : forall b st, honest b st -> exists st', pcg_step div A (index_of A) (precond inv A) st = Ok st' /\ honest b st'.
  Proof.
    intros b st (H1 & H2). unfold pcg_step. destruct (mult_ok (i_d st) (i_q st)) as (q & E & Xq). rewrite E. cbn [bind]. eexists. split; [reflexivity|]. split; cbn [i_r i_x i_dn].
    - intros p Hp. set (a := div _ _). change (ksub (i_r st p) (kmul a (q p)) = residual n S b (vadd (i_x st) (vscale a (i_d st))) p). rewrite H1, Xq by auto. unfold residual. rewrite (mvmul_add n S (i_x st) (vscale a (i_d st)) p), (mvmul_scale n S a (i_d st) p). ring.
    - eexists. split; [apply precond_ok|]. rewrite rbiA. reflexivity.
  Qed.
  Lemma loop_honest : forall b d0 k st, honest b st -> exists st' broke, pcg_loop div leb A (index_of A) (precond inv A) d0 k st = Ok (st', broke) /\ honest b st' /\ (broke = true -> leb (i_dn st') d0 = true).
  Proof.
    intros b d0. induction k as [|k IH]; intros st H; cbn [pcg_loop].
    - exists st, false. split; auto. split; auto. discriminate.
    - destruct (leb (i_dn st) d0) eqn:E; [exists st, true; auto|]. destruct (step_honest b st H) as (st' & E' & H'). rewrite E'. cbn [bind]. apply IH. auto.
  Qed.

  Theorem solve_honest : forall P b, (p_ix P = [] \/ p_ix P = index_of A) ->
    exists P' x broke z0 z, pcg_solve div leb gtb half inv P A b = Ok (P', x, true, broke) /\ p_ix P' = index_of A /\
      preconditioned l inv A b z0 /\ preconditioned l inv A (residual n S b x) z /\ p_res P' = kmul half (vdot n (residual n S b x) z) /\
      (broke = true -> leb (vdot n (residual n S b x) z) (threshold gtb P (vdot n b z0)) = true).
  Proof.
    intros P b Hix. unfold pcg_solve. assert (Ix : match p_ix P with [] => index_of A | l => l end = index_of A) by (destruct Hix as [->| ->]; auto; destruct (index_of A); auto). rewrite Ix. cbn zeta.
    destruct (loop_honest b (threshold gtb P (i_dn (pcg_start A (precond inv A) b))) (max_iter P A) _ (start_honest b)) as (st & broke & E & (H1 & z & H2 & H3) & H4). rewrite E. cbn [bind fst snd].
    assert (Pz : preconditioned l inv A (residual n S b (i_x st)) z).
    { intros b0 i Hb Hi. rewrite H2 by auto. unfold mvmul. apply ksum_ext. intros t Ht. rewrite H1; auto. unfold n. rewrite total_base. pose proof (base_mono l (Datatypes.S b0) (length l) loA ltac:(unfold m in *; lia) ltac:(lia)) as M. rewrite base_S in M by (auto using loA). lia. }
    assert (Ez : i_dn st = vdot n (residual n S b (i_x st)) z) by (rewrite H3; apply vdot_ext; [intros p Hp; auto|apply veq_refl]).
    do 2 eexists. exists broke. do 2 eexists. split; [reflexivity|]. cbn [p_ix p_res]. split; auto. split; [apply (precond_ok b (fun _ => k0))|]. split; [exact Pz|]. split; [rewrite Ez; auto|].
    intros B. rewrite <- Ez. specialize (H4 B). unfold pcg_start in H4. cbn [i_dn] in H4. rewrite rbiA in H4. exact H4.
  Qed.
End Proofs.
