(** * Proofs for the conjugate gradient solver over the real numbers *)
From Coq Require Import Reals Lra Arith Lia List ZArith Bool.
From Verif Require Import Lib_Ring Lib_Real Lib_Res Lib_CG SBM_Model SBM_Spec SBM_Proofs Cov_Model PCG_Model PCG_Spec PCG_Proofs PCG_Spec2.
Import ListNotations.
Open Scope R_scope.

Section Proofs.
  Variable div : R -> R -> R.
  Variable inv : nat -> mat R -> mat R.
  Variables (A : sbm R) (l : list nat) (S : mat R).
  Hypothesis Qt : quotient div.
  Hypothesis HU : holds_upper A l S.
  Hypothesis Sy : sym (total l) S.
  Hypothesis Pd : pos_def (total l) S.
  Hypothesis Di : diagonal_stored A.
  Hypothesis Iv : inverts l inv A.
  Let n := total l. Let m := length l.
  Let lo : layout_ok l := loA A l S HU.
  Definition Jv (v : vec R) : vec R := multDiag (s_cbi A) (precond inv A) v (fun _ => 0).
  Let bs b := bsize l b. Let B b := blk A b b. Let G b := inv (bsize l b) (blk A b b).
  Let part (v : vec R) b : vec R := fun t => v (base l b + t)%nat.

  Lemma tile_in : forall b i, (b < m)%nat -> (i < bs b)%nat -> (base l b + i < n)%nat.
  Proof.
    intros b i Hb Hi. unfold n. rewrite total_base. pose proof (base_mono l (Datatypes.S b) (length l) lo) as M. rewrite base_S in M by auto. unfold m, bs in *. specialize (M ltac:(lia) ltac:(lia)). lia.
  Qed.
  Lemma Jv_at : forall v b i, (b < m)%nat -> (i < bs b)%nat -> Jv v (base l b + i)%nat = mvmul (bs b) (G b) (part v b) i.
  Proof. intros v b i Hb Hi. apply (precond_ok inv A l S HU Di v (fun _ => 0)); auto. Qed.
  Lemma J_any : forall v dest, veq n (multDiag (s_cbi A) (precond inv A) v dest) (Jv v).
  Proof.
    intros v dest p Hp. unfold n in Hp. rewrite total_base in Hp. destruct (tile_exists l p m lo (le_n _) Hp) as (b & i & Hb & Hi & ->). rewrite Jv_at by auto. apply (precond_ok inv A l S HU Di v dest); auto.
  Qed.
  Lemma dot_tiles : forall u v : vec R, vdot n u v = ksum m (fun b => vdot (bs b) (part u b) (part v b)).
  Proof. intros u v. unfold vdot, n. rewrite total_base, (ksum_tile l (length l)) by auto. reflexivity. Qed.
  Lemma B_at : forall b i j, (b < m)%nat -> (i < bs b)%nat -> (j < bs b)%nat -> B b i j = S (base l b + i)%nat (base l b + j)%nat.
  Proof. intros b i j Hb Hi Hj. pose proof HU as (_ & _ & _ & _ & X). unfold B. rewrite X by auto. rewrite Nat.leb_refl. auto. Qed.
  Lemma B_sym : forall b (u v : vec R), (b < m)%nat -> vdot (bs b) u (mvmul (bs b) (B b) v) = vdot (bs b) (mvmul (bs b) (B b) u) v.
  Proof.
    intros b u v Hb. rewrite vdot_mvmul. apply vdot_ext; [|apply veq_refl]. intros i Hi. unfold mvmul, mtr. apply ksum_ext. intros k Hk. rewrite !B_at, Sy by (auto using tile_in). reflexivity.
  Qed.
  Lemma B_pos : forall b (w : vec R), (b < m)%nat -> (exists i, (i < bs b)%nat /\ w i <> 0) -> 0 < vdot (bs b) w (mvmul (bs b) (B b) w).
  Proof.
    intros b w Hb (i & Hi & Wi). set (e := seg_set (fun _ => 0) (base l b) (bs b) w).
    assert (Ee : forall c t, (c < m)%nat -> (t < bs c)%nat -> e (base l c + t)%nat = if Nat.eqb b c then w t else 0).
    { intros c t Hc Ht. unfold e, seg_set. rewrite tile_test by auto. destruct (Nat.eqb_spec b c) as [->|]; auto. f_equal. lia. }
    assert (H : 0 < vdot n e (mvmul n S e)).
    { apply Pd. exists (base l b + i)%nat. split; [apply tile_in; auto|]. rewrite Ee by auto. rewrite Nat.eqb_refl. auto. }
    replace (vdot (bs b) w (mvmul (bs b) (B b) w)) with (vdot n e (mvmul n S e)); auto.
    rewrite dot_tiles, (ksum_single m b) by (auto; intros c Hc Nc; unfold vdot; apply (@ksum_zero R RRing); intros t Ht; unfold part; rewrite Ee by auto; rewrite (proj2 (Nat.eqb_neq b c)) by auto; cbn; ring).
    unfold vdot. apply ksum_ext. intros t Ht. unfold part. rewrite Ee by auto. rewrite Nat.eqb_refl. f_equal. unfold mvmul, n. rewrite total_base, (ksum_tile l (length l)) by auto.
    rewrite (ksum_single (length l) b) by (auto; intros c Hc Nc; apply (@ksum_zero R RRing); intros k Hk; rewrite Ee by auto; rewrite (proj2 (Nat.eqb_neq b c)) by auto; cbn; ring).
    apply ksum_ext. intros k Hk. rewrite Ee, B_at by auto. rewrite Nat.eqb_refl. reflexivity.
  Qed.
  Lemma BG : forall b (v : vec R), (b < m)%nat -> veq (bs b) (mvmul (bs b) (B b) (mvmul (bs b) (G b) v)) v.
  Proof.
    intros b v Hb i Hi. rewrite <- (mvmul_mmul (bs b) (bs b) (B b) (G b) v i). transitivity (mvmul (bs b) mid v i); [|apply mvmul_id; auto].
    apply (mvmul_ext (bs b) (bs b)); auto using veq_refl. apply Iv. auto.
  Qed.
  Lemma J_sym : forall u v, vdot n u (Jv v) = vdot n (Jv u) v.
  Proof.
    intros u v. rewrite !dot_tiles. apply ksum_ext. intros b Hb. set (w1 := mvmul (bs b) (G b) (part u b)). set (w2 := mvmul (bs b) (G b) (part v b)).
    transitivity (vdot (bs b) (mvmul (bs b) (B b) w1) w2).
    - apply vdot_ext; [apply veq_sym, BG; auto|]. intros i Hi. apply Jv_at; auto.
    - rewrite <- B_sym by auto. apply vdot_ext; [intros i Hi; symmetry; apply Jv_at; auto|apply BG; auto].
  Qed.
  Lemma J_block : forall b v, (b < m)%nat -> (exists i, (i < bs b)%nat /\ part v b i <> 0) -> 0 < vdot (bs b) (part v b) (part (Jv v) b).
  Proof.
    intros b v Hb (i & Hi & Vi). set (w := mvmul (bs b) (G b) (part v b)).
    rewrite (vdot_ext (bs b) _ (mvmul (bs b) (B b) w) _ w) by (try (apply veq_sym, BG; auto); intros t Ht; apply Jv_at; auto).
    rewrite vdot_comm. apply B_pos; auto. destruct (Exists_dec (fun t => w t <> 0) (seq 0 (bs b))) as [E|E].
    { intros t. destruct (Req_EM_T (w t) 0); [right|left]; auto. }
    - apply Exists_exists in E. destruct E as (t & Ht & Wt). apply in_seq in Ht. exists t. split; [lia|auto].
    - exfalso. apply Vi. rewrite <- (BG b (part v b) Hb i Hi). unfold mvmul at 1. apply (@ksum_zero R RRing). intros t Ht. fold w.
      destruct (Req_EM_T (w t) 0) as [->|F]; [cbn; ring|]. exfalso. apply E, Exists_exists. exists t. split; auto. apply in_seq. lia.
  Qed.
  Lemma ksum_nonneg : forall k (f : nat -> R), (forall i, (i < k)%nat -> 0 <= f i) -> 0 <= ksum k f.
  Proof. induction k as [|k IH]; intros f H; cbn [ksum]; [cbn; lra|]. pose proof (IH f ltac:(intros; apply H; lia)). pose proof (H k ltac:(lia)). cbn in *. lra. Qed.
  Lemma ksum_pos : forall k (f : nat -> R) j, (forall i, (i < k)%nat -> 0 <= f i) -> (j < k)%nat -> 0 < f j -> 0 < ksum k f.
  Proof.
    induction k as [|k IH]; intros f j H Hj Fj; [lia|]. cbn [ksum]. destruct (Nat.eq_dec j k) as [->|].
    - pose proof (ksum_nonneg k f ltac:(intros; apply H; lia)). cbn in *. lra.
    - pose proof (IH f j ltac:(intros; apply H; lia) ltac:(lia) Fj). pose proof (H k ltac:(lia)). cbn in *. lra.
  Qed.
  Lemma J_block0 : forall b v, (b < m)%nat -> 0 <= vdot (bs b) (part v b) (part (Jv v) b).
  Proof.
    intros b v Hb. destruct (Exists_dec (fun t => part v b t <> 0) (seq 0 (bs b))) as [E|E].
    { intros t. destruct (Req_EM_T (part v b t) 0); [right|left]; auto. }
    - apply Exists_exists in E. destruct E as (t & Ht & Wt). apply in_seq in Ht. apply Rlt_le, J_block; auto. exists t. split; [lia|auto].
    - apply Req_le. symmetry. unfold vdot. apply (@ksum_zero R RRing). intros t Ht. destruct (Req_EM_T (part v b t) 0) as [->|F]; [cbn; ring|]. exfalso. apply E, Exists_exists. exists t. split; auto. apply in_seq. lia.
  Qed.
  Lemma J_nonneg : forall v, 0 <= vdot n v (Jv v).
  Proof. intros v. rewrite dot_tiles. apply ksum_nonneg. intros b Hb. apply J_block0; auto. Qed.
  Lemma J_pos : forall v, (exists i, (i < n)%nat /\ v i <> 0) -> 0 < vdot n v (Jv v).
  Proof.
    intros v (p & Hp & Vp). unfold n in Hp. rewrite total_base in Hp. destruct (tile_exists l p m lo (le_n _) Hp) as (b & i & Hb & Hi & ->).
    rewrite dot_tiles. apply (ksum_pos m _ b); auto. { intros c Hc. apply J_block0; auto. } apply J_block; auto. exists i. auto.
  Qed.

  (* the loop as a sequence of states *)
  Notation step := (pcg_step div A (index_of A) (precond inv A)).
  Lemma trace : forall d0 k st st' broke, pcg_loop div rleb A (index_of A) (precond inv A) d0 k st = Ok (st', broke) ->
    exists tr N, (N <= k)%nat /\ tr 0%nat = st /\ tr N = st' /\ (forall j, (j < N)%nat -> step (tr j) = Ok (tr (j + 1)%nat) /\ d0 < i_dn (tr j)) /\
      (if broke then i_dn st' <= d0 else N = k).
  Proof.
    intros d0. induction k as [|k IH]; intros st st' broke H; cbn [pcg_loop] in H.
    - injection H as <- <-. exists (fun _ => st), 0%nat. repeat split; auto; intros; lia.
    - unfold rleb in H. destruct (Rle_dec (i_dn st) d0) as [L|L].
      + injection H as <- <-. exists (fun _ => st), 0%nat. repeat split; auto; intros; lia.
      + destruct (step st) as [st1| |] eqn:E; cbn [bind] in H; try discriminate. destruct (IH _ _ _ H) as (tr & N & H1 & H2 & H3 & H4 & H5).
        exists (fun j => match j with O => st | Datatypes.S j' => tr j' end), (Datatypes.S N). split; [lia|]. split; auto. split; auto. split.
        * intros [|j] Hj; cbn [Nat.add].
          -- split; [rewrite H2; auto|lra].
          -- apply H4. lia.
        * destruct broke; auto.
  Qed.
  Lemma step_inv : forall st st', step st = Ok st' -> let a := div (i_dn st) (vdot n (i_d st) (i_q st')) in
    veq n (i_q st') (mvmul n S (i_d st)) /\ i_x st' = vadd (i_x st) (vscale a (i_d st)) /\ i_r st' = vsub (i_r st) (vscale a (i_q st')) /\
    i_dn st' = vdot n (i_r st') (Jv (i_r st')) /\ veq n (i_d st') (vadd (Jv (i_r st')) (vscale (div (i_dn st') (i_dn st)) (i_d st))).
  Proof.
    intros st st' H. unfold pcg_step in H. destruct (mult_ok A l S HU Sy Di (i_d st) (i_q st)) as (q & E & Xq). rewrite E in H. cbn [bind] in H. injection H as <-. cbn [i_q i_x i_r i_dn i_d].
    rewrite (rbiA A l S HU). fold n. split; [exact Xq|]. split; auto. split; auto. split.
    - apply vdot_ext; [apply veq_refl|apply J_any].
    - intros p Hp. unfold vadd. f_equal. apply J_any. auto.
  Qed.

  (* what a run leaves, given that the threshold is not negative *)
  Lemma run : forall b d0 k st' broke, 0 <= d0 -> pcg_loop div rleb A (index_of A) (precond inv A) d0 k (pcg_start A (precond inv A) b) = Ok (st', broke) ->
    vdot n (i_x st') (i_r st') = 0 /\ ((n <= k)%nat -> i_dn st' <= d0).
  Proof.
    intros b d0 k st' broke H0 H. destruct (trace _ _ _ _ _ H) as (tr & N & H1 & H2 & H3 & H4 & H5).
    set (x := fun j => i_x (tr j)). set (r := fun j => i_r (tr j)). set (d := fun j => i_d (tr j)). set (q := fun j => i_q (tr (j + 1)%nat)). set (dn := fun j => i_dn (tr j)).
    set (a := fun j => div (dn j) (vdot n (d j) (q j))).
    assert (St : forall j, (j < N)%nat -> veq n (q j) (mvmul n S (d j)) /\ x (j + 1)%nat = vadd (x j) (vscale (a j) (d j)) /\ r (j + 1)%nat = vsub (r j) (vscale (a j) (q j)) /\
      dn (j + 1)%nat = vdot n (r (j + 1)%nat) (Jv (r (j + 1)%nat)) /\ veq n (d (j + 1)%nat) (vadd (Jv (r (j + 1)%nat)) (vscale (div (dn (j + 1)%nat) (dn j)) (d j)))).
    { intros j Hj. apply (step_inv (tr j) (tr (j + 1)%nat)). apply H4. auto. }
    assert (Pos : forall j, (j < N)%nat -> 0 < dn j) by (intros j Hj; destruct (H4 j Hj) as (_ & L); unfold dn; lra).
    assert (X0 : veq n (x 0%nat) (fun _ => 0)) by (unfold x; rewrite H2; intros p Hp; reflexivity).
    assert (D0 : veq n (d 0%nat) (Jv (r 0%nat))) by (unfold d, r; rewrite H2; apply veq_refl).
    assert (Dn : forall j, (j <= N)%nat -> dn j = vdot n (r j) (Jv (r j))).
    { intros [|j] Hj.
      - unfold dn, r. rewrite H2. unfold pcg_start. cbn [i_dn i_r]. rewrite (rbiA A l S HU). reflexivity.
      - replace (Datatypes.S j) with (j + 1)%nat by lia. apply St. lia. }
    assert (Aq : forall j, (j < N)%nat -> vdot n (d j) (q j) <> 0 -> a j = dn j / vdot n (d j) (q j)) by (intros j _ Nz; apply Qt; auto).
    assert (Q : forall j, (j < N)%nat -> veq n (q j) (mvmul n S (d j))) by (intros j Hj; apply St; auto).
    assert (Xs : forall j, (j < N)%nat -> veq n (x (j + 1)%nat) (vadd (x j) (vscale (a j) (d j)))) by (intros j Hj; destruct (St j Hj) as (_ & -> & _); apply veq_refl).
    assert (Rs : forall j, (j < N)%nat -> veq n (r (j + 1)%nat) (vsub (r j) (vscale (a j) (q j)))) by (intros j Hj; destruct (St j Hj) as (_ & _ & -> & _); apply veq_refl).
    assert (Ds : forall j, (j < N)%nat -> veq n (d (j + 1)%nat) (vadd (Jv (r (j + 1)%nat)) (vscale (dn (j + 1)%nat / dn j) (d j)))).
    { intros j Hj. rewrite <- Qt by (specialize (Pos j Hj); lra). apply St. auto. }
    split.
    - rewrite <- H3. exact (ortho n S Jv Sy Pd J_sym x r d q dn a N Aq X0 D0 Dn Pos Q Xs Rs Ds).
    - intros Hk. destruct broke; auto. subst k.
      pose proof (finished n S Jv Sy Pd J_sym x r d q dn a N Aq X0 D0 Dn Pos Q Xs Rs Ds Hk) as F.
      destruct (Nat.eq_dec n N) as [E|E]; [|pose proof (Pos n ltac:(lia)); lra]. rewrite <- H3, <- E. change (i_dn (tr n)) with (dn n). lra.
  Qed.

  Lemma threshold_nonneg : forall P dn, 0 <= p_tol P -> 0 <= dn -> 0 <= threshold rgtb P dn.
  Proof.
    intros P dn H1 H2. unfold threshold. cbn. pose proof (Rmult_le_pos _ _ H1 H2). unfold rgtb. destruct (Rgt_dec (p_res P) 0), (Rgt_dec (p_res P) (p_tol P * dn)), (p_abs P); cbn [andb]; lra.
  Qed.
  Lemma max_enough : forall P, enough n P -> (n <= max_iter P A)%nat.
  Proof.
    intros P [H|H]; unfold max_iter.
    - rewrite (proj2 (Z.ltb_lt _ _) H). rewrite (rbiA A l S HU). auto.
    - rewrite (proj2 (Z.ltb_ge _ _)) by lia. lia.
  Qed.

  Theorem converges : forall P b, (p_ix P = [] \/ p_ix P = index_of A) -> 0 <= p_tol P ->
    exists P' x broke z0 z, pcg_solve div rleb rgtb (1/2) inv P A b = Ok (P', x, true, broke) /\
      preconditioned l inv A b z0 /\ preconditioned l inv A (residual n S b x) z /\
      vdot n b x = vdot n x (mvmul n S x) /\
      (enough n P -> vdot n (residual n S b x) z <= threshold rgtb P (vdot n b z0)) /\
      (enough n P -> threshold rgtb P (vdot n b z0) = 0 -> forall p, (p < n)%nat -> mvmul n S x p = b p).
  Proof.
    intros P b Hix Ht. unfold pcg_solve. assert (Ix : match p_ix P with [] => index_of A | l => l end = index_of A) by (destruct Hix as [->| ->]; auto; destruct (index_of A); auto). rewrite Ix. cbn zeta.
    set (st0 := pcg_start A (precond inv A) b).
    destruct (loop_honest div rleb inv A l S HU Sy Di b (threshold rgtb P (i_dn st0)) (max_iter P A) st0 (start_honest inv A l S HU Di b)) as (st & broke & E & (H1 & _) & _). rewrite E. cbn [bind fst snd].
    assert (T0 : 0 <= threshold rgtb P (i_dn st0)).
    { apply threshold_nonneg; auto. unfold st0, pcg_start. cbn [i_dn]. rewrite (rbiA A l S HU). apply J_nonneg. }
    destruct (run b _ _ st broke T0 E) as (R1 & R2).
    assert (Hl : exists tr N, tr 0%nat = st0 /\ tr N = st /\ forall j, (j < N)%nat -> step (tr j) = Ok (tr (j + 1)%nat)).
    { destruct (trace _ _ _ _ _ E) as (tr & N & _ & A2 & A3 & A4 & _). exists tr, N. split; auto. split; auto. intros j Hj. apply A4. auto. }
    assert (Dn : i_dn st = vdot n (i_r st) (Jv (i_r st))).
    { destruct Hl as (tr & N & A2 & A3 & A4). destruct N as [|N].
      - rewrite <- A3, A2. unfold st0, pcg_start. cbn [i_dn i_r]. rewrite (rbiA A l S HU). reflexivity.
      - rewrite <- A3. replace (Datatypes.S N) with (N + 1)%nat by lia. apply (step_inv _ _ (A4 N ltac:(lia))). }
    set (rr := residual n S b (i_x st)) in *.
    assert (Er : veq n (i_r st) rr) by exact H1.
    assert (Ej : veq n (Jv (i_r st)) (Jv rr)).
    { intros p Hp. assert (Hp' := Hp). unfold n in Hp'. rewrite total_base in Hp'. destruct (tile_exists l p m lo (le_n _) Hp') as (c & i & Hc & Hi & ->). rewrite !Jv_at by auto. unfold mvmul. apply ksum_ext. intros t Htt. f_equal. apply Er. apply tile_in; auto. }
    assert (Dr : i_dn st = vdot n rr (Jv rr)) by (rewrite Dn; apply vdot_ext; auto).
    assert (D0 : i_dn st0 = vdot n b (Jv b)) by (unfold st0, pcg_start; cbn [i_dn]; rewrite (rbiA A l S HU); reflexivity).
    do 2 eexists. exists broke, (Jv b), (Jv rr). split; [reflexivity|]. split; [apply (precond_ok inv A l S HU Di b (fun _ => 0))|]. split; [apply (precond_ok inv A l S HU Di rr (fun _ => 0))|].
    split; [|split].
    - rewrite (vdot_ext n (i_x st) (i_x st) (i_r st) (vsub b (mvmul n S (i_x st)))) in R1 by (auto using veq_refl). rewrite vdot_sub_r in R1. rewrite vdot_comm. cbn in R1. lra.
    - intros He. fold rr. rewrite <- Dr, <- D0. apply R2, max_enough, He.
    - intros He Tz p Hp. rewrite D0 in R2. rewrite Tz in R2. specialize (R2 (max_enough P He)). rewrite Dr in R2.
      destruct (Req_EM_T (rr p) 0) as [Z|Z].
      + unfold rr, residual in Z. cbn in Z. lra.
      + exfalso. pose proof (J_pos rr (ex_intro _ p (conj Hp Z))). lra.
  Qed.
End Proofs.

Lemma solve_converges : forall (div : R -> R -> R) (inv : nat -> mat R -> mat R) (A : sbm R) l S,
  quotient div -> holds_upper A l S -> sym (total l) S -> pos_def (total l) S -> diagonal_stored A -> inverts l inv A ->
  forall P b, p_ix P = [] \/ p_ix P = index_of A -> 0 <= p_tol P -> enough (total l) P ->
  exists P' x broke z0 z, pcg_solve div rleb rgtb (1/2) inv P A b = Ok (P', x, true, broke) /\
    preconditioned l inv A b z0 /\ preconditioned l inv A (residual (total l) S b x) z /\
    vdot (total l) (residual (total l) S b x) z <= threshold rgtb P (vdot (total l) b z0).
Proof.
  intros div inv A l S H1 H2 H3 H4 H5 H6 P b Hi Ht He. destruct (converges div inv A l S H1 H2 H3 H4 H5 H6 P b Hi Ht) as (P' & x & broke & z0 & z & E & Z0 & Z1 & _ & X & _). exists P', x, broke, z0, z. auto.
Qed.
Lemma solve_exact : forall (div : R -> R -> R) (inv : nat -> mat R -> mat R) (A : sbm R) l S,
  quotient div -> holds_upper A l S -> sym (total l) S -> pos_def (total l) S -> diagonal_stored A -> inverts l inv A ->
  forall P b, p_ix P = [] \/ p_ix P = index_of A -> p_tol P = 0 -> p_res P <= 0 -> enough (total l) P ->
  exists P' x broke, pcg_solve div rleb rgtb (1/2) inv P A b = Ok (P', x, true, broke) /\ forall p, (p < total l)%nat -> mvmul (total l) S x p = b p.
Proof.
  intros div inv A l S H1 H2 H3 H4 H5 H6 P b Hi Ht Hr He. destruct (converges div inv A l S H1 H2 H3 H4 H5 H6 P b Hi ltac:(lra)) as (P' & x & broke & z0 & z & E & _ & _ & _ & _ & X). exists P', x, broke. split; auto. apply X; auto.
  unfold threshold. rewrite Ht. cbn. unfold rgtb. destruct (Rgt_dec (p_res P) 0); [lra|]. rewrite andb_false_r. cbn. ring.
Qed.
Lemma solve_truncated : forall (div : R -> R -> R) (inv : nat -> mat R -> mat R) (A : sbm R) l S,
  quotient div -> holds_upper A l S -> sym (total l) S -> pos_def (total l) S -> diagonal_stored A -> inverts l inv A ->
  forall P b, p_ix P = [] \/ p_ix P = index_of A -> 0 <= p_tol P ->
  exists P' x broke, pcg_solve div rleb rgtb (1/2) inv P A b = Ok (P', x, true, broke) /\
    vdot (total l) b x = vdot (total l) x (mvmul (total l) S x) /\ ((exists i, (i < total l)%nat /\ x i <> 0) -> 0 < vdot (total l) b x) /\
    forall t, vdot (total l) x (mvmul (total l) S x) - 2 * vdot (total l) b x <= vdot (total l) (vscale t x) (mvmul (total l) S (vscale t x)) - 2 * vdot (total l) b (vscale t x).
Proof.
  intros div inv A l S H1 H2 H3 H4 H5 H6 P b Hi Ht. destruct (converges div inv A l S H1 H2 H3 H4 H5 H6 P b Hi Ht) as (P' & x & broke & z0 & z & E & _ & _ & X & _). exists P', x, broke. split; auto. split; auto. split.
  - intros N. rewrite X. apply H4. exact N.
  - intros t. rewrite vdot_scale_l, vdot_scale_r. rewrite (vdot_ext (total l) x x (mvmul (total l) S (vscale t x)) (vscale t (mvmul (total l) S x))) by (auto using veq_refl; intros i _; apply mvmul_scale). rewrite vdot_scale_r, X. cbn.
    set (w := vdot (total l) x (mvmul (total l) S x)). assert (W : 0 <= w).
    { destruct (Exists_dec (fun i => x i <> 0) (seq 0 (total l))) as [Ex|Ex].
      { intros i. destruct (Req_EM_T (x i) 0); [right|left]; auto. }
      - apply Exists_exists in Ex. destruct Ex as (i & Hin & Xi). apply in_seq in Hin. apply Rlt_le, H4. exists i. split; [lia|auto].
      - apply Req_le. symmetry. apply (@ksum_zero R RRing). intros i Hin. destruct (Req_EM_T (x i) 0) as [->|F]; [cbn; ring|]. exfalso. apply Ex, Exists_exists. exists i. split; auto. apply in_seq. lia. }
    assert (Q2 : 0 <= w * ((t - 1) * (t - 1))) by (apply Rmult_le_pos; [exact W|exact (Rle_0_sqr (t - 1))]). replace (w * ((t - 1) * (t - 1))) with (t * (t * w) - 2 * (t * w) - (w - 2 * w)) in Q2 by ring. lra.
Qed.
