(** * Proofs about the sparse Cholesky, sparse QR and dense QR solvers *)
From Coq Require Import Arith Lia List ZArith Bool Ring Sorting.Sorted Sorting.Permutation.
From Verif Require Import Lib_Ring Lib_Res CCM_Model SBM_Model SBM_Spec SBM_Proofs Schur_Proofs LinSolve_Model LinSolve_Spec LinSolve_Proofs.
From Verif Require CCM_Spec CCM_Proofs CCM_Proofs2 CCM_Proofs3.
Import ListNotations.

Section LSP2.
  Context {K : Type} {R : CRing K}.
  Add Ring Kring_lsp2 : (@kring K R).
  Notation lterm := (lterm K). Notation bmap := (bmap K). Notation ccm := (ccm K).

  (** errors *)
  Lemma eval_errors_before : forall ts row e p, p < row -> eval_errors ts row e p = e p.
  Proof.
    intros ts. induction ts as [|t ts IH]; intros row e p Hp; cbn [eval_errors]; auto. rewrite IH by lia. rewrite (proj2 (Nat.leb_gt row p)) by lia. auto.
  Qed.
  Lemma eval_errors_ok : forall ts row e p, row <= p -> p < row + jrows ts -> eval_errors ts row e p = kopp (e_of ts (p - row)).
  Proof.
    intros ts. induction ts as [|t ts IH]; intros row e p H1 H2; [unfold jrows in H2; cbn in H2; lia|].
    assert (Q : jrows (t :: ts) = lt_dim t + jrows ts) by reflexivity. rewrite Q in H2. cbn [eval_errors e_of]. destruct (Nat.ltb_spec (p - row) (lt_dim t)) as [L|L].
    - rewrite eval_errors_before by lia. rewrite (proj2 (Nat.leb_le row p)), (proj2 (Nat.ltb_lt p (row + lt_dim t))) by lia. cbn [andb]. rewrite werr_ok. auto.
    - rewrite IH by lia. f_equal. f_equal. lia.
  Qed.

  (** the transposed Jacobian *)
  Lemma append_diag : forall z es (m m' : ccm) ps, append_terms z es m = Ok (m', ps) -> c_diag m = false -> c_diag m' = false.
  Proof.
    intros z es. induction es as [|e es IH]; intros m m' ps H D; cbn [append_terms] in H; [congruence|].
    unfold appendSymbolic in H. rewrite D in H. destruct (negb (c_acc m) && _); [discriminate|]. destruct (c_cp m) as [|a b] eqn:Ecp; [discriminate|]. cbv zeta in H.
    destruct (puts _ _) as [ri| |]; cbn [bind] in H; try discriminate. unfold checked in H. destruct (consistent _) in H; cbn [bind] in H; try discriminate.
    match type of H with (do r <- append_terms z es ?m1; _) = _ => destruct (append_terms z es m1) as [[m2 ps2]| |] eqn:E; cbn [bind] in H; try discriminate end.
    injection H as <- _. cbn [fst]. eapply IH; [exact E|reflexivity].
  Qed.
  Lemma last_dv : forall l d0, layout_ok l -> l <> [] -> j_base (last (all_dvs l) d0) + j_dim (last (all_dvs l) d0) = total l.
  Proof.
    intros l d0 Lo Ne. unfold all_dvs. destruct (length l) as [|k] eqn:E; [destruct l; cbn in E; congruence|]. rewrite seq_S, map_app. cbn [map]. rewrite last_last. cbn [dv_of j_base j_dim Nat.add].
    rewrite <- base_S by (auto; lia). rewrite total_base, E. auto.
  Qed.
  Lemma dv_end : forall l b, layout_ok l -> b < length l -> base l b + bsize l b <= total l.
  Proof. intros l b Lo Hb. rewrite <- base_S by auto. rewrite total_base. apply base_mono; auto. Qed.
  Lemma et_ok : forall l t, layout_ok l -> lterm_ok l t -> CCM_Spec.term_ok (total l) (et_of l t).
  Proof.
    intros l t Lo (S & F). split; cbn [et_of e_dim e_dvs e_jac].
    - split.
      + rewrite Forall_map. unfold wjac. rewrite Forall_map. eapply Forall_impl; [|exact F]. intros e He. cbn [fst jb_dv jb_rows jb_cols dv_of j_active j_dim j_base].
        split; auto. split; auto. split; auto. apply dv_end; auto.
      + unfold wjac. rewrite map_map. cbn [fst]. induction (lt_jac t) as [|[k J] es IH]; cbn [map]; [constructor|]. cbn [map fst] in S. apply StronglySorted_inv in S. destruct S as [S Fs].
        inversion F as [|? ? Fk F']; subst. constructor; [apply IH; auto|]. rewrite Forall_map. rewrite Forall_map in Fs. rewrite Forall_forall in *. intros e He. specialize (Fs e He). specialize (F' e He). cbn [fst] in *.
        unfold CCM_Spec.before. cbn [jb_dv dv_of j_block j_base j_dim]. split; [lia|]. rewrite <- base_S by auto. apply base_mono; auto; lia.
    - unfold wjac. rewrite !map_map. cbn [fst jb_dv].
      induction (lt_jac t) as [|e es IH]; cbn [map filter dv_of j_active]; [constructor|]. constructor. apply IH; [|inversion F; auto]. cbn [map] in S. apply StronglySorted_inv in S. tauto.
  Qed.
  Lemma entry_ok : forall l t c b i, layout_ok l -> lterm_ok l t -> b < length l -> i < bsize l b ->
    CCM_Spec.jac_entry k0 (e_jac (et_of l t)) c (base l b + i) = X b (wjac t) c i.
  Proof.
    intros l t c b i Lo (_ & F) Hb Hi. cbn [et_of e_jac]. assert (F' : Forall (fun e => fst e < length l) (wjac t)) by (unfold wjac; rewrite Forall_map; exact F).
    induction (wjac t) as [|[k J] es IH]; cbn [map CCM_Spec.jac_entry]; [reflexivity|]. inversion F' as [|? ? Fk F2]; subst. cbn [fst snd jb_dv jb_mat dv_of j_base j_dim] in *.
    rewrite (tile_test l k b i) by auto. rewrite X_cons, (Nat.eqb_sym b k). destruct (Nat.eqb_spec k b) as [->|N]; [f_equal; lia|]. apply IH; auto.
  Qed.
  Lemma stacked_ok : forall l ts r q, layout_ok l -> Forall (lterm_ok l) ts -> q < total l -> CCM_Spec.stacked k0 (map (et_of l) ts) q r = J_of l ts r q.
  Proof.
    intros l ts r q Lo F Hq. rewrite total_base in Hq. destruct (tile_exists l q (length l) Lo (le_n _) Hq) as (b & i & Hb & Hi & ->). clear Hq. revert r.
    induction ts as [|t ts IH]; intros r; cbn [map CCM_Spec.stacked J_of]; auto. inversion F as [|? ? T F']; subst. change (e_dim (et_of l t)) with (lt_dim t).
    destruct (r <? lt_dim t); [|apply IH; auto]. rewrite entry_ok, (wjac_tile l t) by auto. auto.
  Qed.

  Lemma sc_build_ok : forall l ts e c use m, buildable l ts m ->
    exists x, sc_build l ts e c use m = Ok x /\ CCM_Spec.well_formed (sc_J x) /\ CCM_Spec.stands_for k0 (sc_J x) (fun q r => J_of l ts r q) /\
      c_rows (sc_J x) = total l /\ c_cols (sc_J x) = jrows ts /\ c_diag (sc_J x) = false /\
      (forall p, p < total l -> sc_rhs x p = mvmul (jrows ts) (mtr (J_of l ts)) e p) /\ sc_e x = e /\ sc_c x = c /\ sc_use x = use.
  Proof.
    intros l ts e c use m (Lo & Ne & F & Len & Acc). unfold sc_build. set (d0 := dv_of l 0). pose proof (last_dv l d0 Lo Ne) as Lt.
    assert (Nd : all_dvs l <> []) by (unfold all_dvs; destruct l; [congruence|discriminate]).
    destruct (CCM_Proofs3.c41_builder (k0 : K) (all_dvs l) d0 (map (et_of l) ts) m 1 Nd) as (m1 & ps & V & js & E1 & E2 & E3 & E4 & _ & _ & E5 & W & St).
    { rewrite Lt. rewrite Forall_map. eapply Forall_impl; [|exact F]. intros t T. apply et_ok; auto. }
    { destruct Acc as [A|A]; [left; auto|right]. rewrite Forall_map. eapply Forall_impl; [|exact A]. intros t T. cbn beta in T. cbn [et_of e_jac]. unfold wjac. destruct (lt_jac t); [elim T; reflexivity|discriminate]. }
    { rewrite map_length. auto. }
    { lia. }
    rewrite E1. cbn [bind fst snd]. rewrite E5. cbn [bind].
    assert (D : c_diag m1 = false).
    { unfold initStructure in E1. destruct (all_dvs l) as [|d dl]; [congruence|]. eapply append_diag; [exact E1|reflexivity]. }
    rewrite Lt in E3. assert (E4' : c_cols m1 = jrows ts) by (rewrite E4, map_map; reflexivity).
    set (M := CCM_Spec.with_values m1 V) in *. assert (UC : used_cols M = jrows ts) by (unfold used_cols, M; cbn [CCM_Spec.with_values c_diag c_cols]; rewrite D; auto).
    destruct (CCM_Proofs3.right_ok M _ e W St) as (y & Ey & Vy). rewrite UC in Ey, Vy. rewrite Ey. cbn [bind].
    eexists. split; [reflexivity|]. cbn [sc_J sc_e sc_rhs sc_c sc_use]. split; [auto|].
    assert (CR : c_rows M = total l) by exact E3. assert (CC : c_cols M = jrows ts) by exact E4'.
    split.
    { intros r cc Hr Hc. rewrite CR in Hr. specialize (St r cc). rewrite CR in St. specialize (St Hr Hc). rewrite stacked_ok in St by auto. exact St. }
    split; auto. split; auto. split; [exact D|]. split; auto.
    intros p Hp. rewrite Vy by (rewrite CR; auto). unfold mvmul, mtr. apply ksum_ext. intros r Hr. rewrite stacked_ok by auto. auto.
  Qed.

  (** C48: sparse Cholesky and sparse QR leave everything as it was *)
  Lemma push_pop : forall (d : list K) (m : ccm), CCM_Spec.well_formed m -> c_diag m = false -> length d = c_rows m ->
    exists m1, pushDiagonal d m = Ok m1 /\ popDiagonal m1 = Ok m /\ m1 = CCM_Proofs.pushed d m.
  Proof.
    intros d m W D L. exists (CCM_Proofs.pushed d m). rewrite (CCM_Proofs.push_code k0) by auto. rewrite L, Nat.eqb_refl, D. split; auto. split; auto. apply CCM_Proofs2.pop_pushed; auto.
  Qed.
  Lemma c48_sparse : forall csolve (x : sc K), CCM_Spec.well_formed (sc_J x) -> c_diag (sc_J x) = false -> length (sc_c x) = c_rows (sc_J x) ->
    exists sol, sc_solve csolve x = Ok (x, sol).
  Proof.
    intros csolve x W D L. unfold sc_solve. destruct x as [J e rhs c use]. cbn [sc_J sc_e sc_rhs sc_c sc_use] in *. destruct use.
    - destruct (push_pop c J W D L) as (m1 & E1 & E2 & _). rewrite E1. cbn [bind]. rewrite E2. cbn [bind]. eauto.
    - cbn [bind]. eauto.
  Qed.
  Lemma c48_sparse_qr : forall qr colscale norm (x : sc K) x' sol, CCM_Spec.well_formed (sc_J x) -> c_diag (sc_J x) = false -> length (sc_c x) = c_rows (sc_J x) ->
    sq_solve qr colscale norm x = Ok (x', sol) -> x' = x.
  Proof.
    intros qr colscale norm x x' sol W D L H. unfold sq_solve in H. destruct x as [J e rhs c use]. cbn [sc_J sc_e sc_rhs sc_c sc_use] in *. destruct use.
    - destruct (push_pop c J W D L) as (m1 & E1 & E2 & _). rewrite E1 in H. cbn [bind] in H. destruct (view_t m1); cbn [bind] in H; try discriminate.
      destruct (qr_solve _ _ _ _ _ _ _) in H; cbn [bind] in H; try discriminate. rewrite E2 in H. cbn [bind] in H. congruence.
    - cbn [bind] in H. destruct (view_t J); cbn [bind] in H; try discriminate. destruct (qr_solve _ _ _ _ _ _ _) in H; cbn [bind] in H; try discriminate. congruence.
  Qed.

  (** C49: sparse Cholesky *)
  Lemma damped_split : forall rows (J : mat K) (c : vec K) n p q, p < n -> q < n ->
    ksum (rows + n) (fun k => kmul (if k <? rows then J k p else if p =? k - rows then c p else k0) (if k <? rows then J k q else if q =? k - rows then c q else k0)) =
    damped_normal rows J c p q.
  Proof.
    intros rows J c n p q Hp Hq. unfold damped_normal, mmul, mtr. rewrite ksum_split. f_equal.
    - apply ksum_ext. intros i Hi. rewrite (proj2 (Nat.ltb_lt i rows) Hi). auto.
    - rewrite (ksum_single n p) by (auto; intros j Hj Nj; rewrite (proj2 (Nat.ltb_ge (rows + j) rows)) by lia; replace (rows + j - rows) with j by lia;
        rewrite (proj2 (Nat.eqb_neq p j)) by auto; ring).
      rewrite (proj2 (Nat.ltb_ge (rows + p) rows)) by lia. replace (rows + p - rows) with p by lia. rewrite Nat.eqb_refl, delta_eqb, (Nat.eqb_sym q p).
      destruct (Nat.eqb_spec p q) as [->|]; ring.
  Qed.
  Lemma neg_mvmul : forall n (A : mat K) (u v : vec K) p, (forall i, i < n -> u i = kopp (v i)) -> mvmul n A u p = kopp (mvmul n A v p).
  Proof. intros n A u v p H. unfold mvmul. rewrite <- ksum_opp. apply ksum_ext. intros i Hi. rewrite H by auto. ring. Qed.

  Lemma c49_sparse_cholesky : forall csolve l ts e0 c use m, buildable l ts m -> length c = total l -> aat_solver csolve ->
    exists x sol, sc_build l ts (eval_errors ts 0 e0) c use m = Ok x /\ sc_solve csolve x = Ok (x, sol) /\
      forall dx, sol = Some dx -> normal_equations (jrows ts) (total l) (J_of l ts) (e_of ts) (fun p => if use : bool then nth p c k0 else k0) dx.
  Proof.
    intros csolve l ts e0 c use m B Lc Hs. destruct (sc_build_ok l ts (eval_errors ts 0 e0) c use m B) as (x & E & W & St & Cr & Cc & D & V & Ee & Ec & Eu).
    destruct (c48_sparse csolve x W D) as (sol & Es); [congruence|]. exists x, sol. split; auto. split; auto. intros dx ->.
    assert (Vr : forall p, p < total l -> sc_rhs x p = kopp (mvmul (jrows ts) (mtr (J_of l ts)) (e_of ts) p)).
    { intros p Hp. rewrite V by auto. apply neg_mvmul. intros i Hi. rewrite eval_errors_ok by lia. rewrite Nat.sub_0_r. auto. }
    unfold sc_solve in Es. rewrite Ec, Eu in Es. unfold normal_equations. destruct use.
    - destruct (push_pop c (sc_J x) W D) as (m1 & E1 & E2 & Em); [congruence|]. rewrite E1 in Es. cbn [bind] in Es. rewrite E2 in Es. cbn [bind] in Es. injection Es as _ Es.
      destruct (CCM_Proofs.pushed_ok (k0 : K) c (sc_J x) _ W St) as (W1 & S1); [congruence|]. rewrite <- Em in W1, S1.
      pose proof (Hs m1 _ _ _ W1 S1 Es) as Q. rewrite Em in Q. cbn [CCM_Proofs.pushed c_rows c_cols] in Q. rewrite Cr, Cc in Q. revert Q. apply solves_ext; auto.
      intros p q Hp Hq. unfold mmul, mtr. rewrite <- (damped_split (jrows ts) (J_of l ts) (fun p => nth p c k0) (total l) p q Hp Hq). reflexivity.
    - cbn [bind] in Es. injection Es as _ Es. pose proof (Hs _ _ _ _ W St Es) as Q. rewrite Cr, Cc in Q. revert Q. apply solves_ext; auto.
      intros p q Hp Hq. unfold damped_normal. unfold mmul, mtr. ring.
  Qed.

  (** C49: sparse QR *)
  Lemma c49_sparse_qr : forall qr colscale norm l ts e0 c use m x x' dx, buildable l ts m ->
    (forall rows cols A b y, qr rows cols A b = Some y -> least_squares rows cols A b y) ->
    (norm = true -> forall A q a, (forall r p, r < jrows ts -> p < total l -> A r p = J_of l ts r p) -> q < total l -> kmul (colscale (jrows ts) A q) a = k0 -> a = k0) ->
    sq_build l ts (eval_errors ts 0 e0) c use m = Ok x -> sq_solve qr colscale norm x = Ok (x', Some dx) ->
    normal_equations (jrows ts) (total l) (J_of l ts) (e_of ts) (fun _ => k0) dx.
  Proof.
    intros qr colscale norm l ts e0 c use m x x' dx B Hq Hn E H. unfold sq_build in E.
    destruct (sc_build_ok l ts (eval_errors ts 0 e0) c false m B) as (x0 & E0 & W & St & Cr & Cc & D & V & Ee & Ec & Eu). rewrite E in E0. injection E0 as <-.
    unfold sq_solve in H. rewrite Eu in H. cbn [bind] in H. unfold view_t in H. destruct (CCM_Proofs.toDense_ok (k0 : K) (sc_J x) _ W St) as (Dn & Ed & Vd). rewrite Ed in H. cbn [bind] in H.
    rewrite Cr, Cc in H. rewrite Cr, Cc in Vd. rewrite Ee in H.
    assert (Vj : forall r p, r < jrows ts -> p < total l -> mtr Dn r p = J_of l ts r p) by (intros r p Hr Hp; unfold mtr; rewrite Vd; auto).
    set (b := eval_errors ts 0 e0) in *. assert (Vb : forall i, i < jrows ts -> b i = kopp (e_of ts i)) by (intros i Hi; unfold b; rewrite eval_errors_ok by lia; rewrite Nat.sub_0_r; auto).
    assert (Goal_of : least_squares (jrows ts) (total l) (mtr Dn) b dx -> normal_equations (jrows ts) (total l) (J_of l ts) (e_of ts) (fun _ => k0) dx).
    { unfold least_squares, normal_equations. apply solves_ext.
      - intros p q Hp Hq'. unfold damped_normal. transitivity (mmul (jrows ts) (mtr (J_of l ts)) (J_of l ts) p q); [|ring]. unfold mmul. apply ksum_ext. intros r Hr. unfold mtr. rewrite !Vd by auto. auto.
      - intros p Hp. etransitivity; [apply neg_mvmul; exact Vb|]. f_equal. unfold mvmul. apply ksum_ext. intros r Hr. unfold mtr. rewrite !Vd by auto. auto. }
    apply Goal_of. unfold qr_solve in H. destruct norm.
    - destruct (qr _ _ _ _) as [y|] eqn:Eq in H; cbn [bind] in H; [|discriminate]. injection H as _ <-. pose proof (Hq _ _ _ _ _ Eq) as L. set (v := colscale (jrows ts) (mtr Dn)) in *.
      intros p Hp. specialize (L p Hp). assert (Z : kmul (v p) (ksub (mvmul (total l) (mmul (jrows ts) (mtr (mtr Dn)) (mtr Dn)) (fun i => kmul (v i) (y i)) p) (mvmul (jrows ts) (mtr (mtr Dn)) b p)) = k0).
      { transitivity (ksub (mvmul (total l) (mmul (jrows ts) (mtr (fun r c0 => kmul (mtr Dn r c0) (v c0))) (fun r c0 => kmul (mtr Dn r c0) (v c0))) y p)
                           (mvmul (jrows ts) (mtr (fun r c0 => kmul (mtr Dn r c0) (v c0))) b p)); [|rewrite L; ring].
        assert (A1 : mvmul (jrows ts) (mtr (fun r c0 => kmul (mtr Dn r c0) (v c0))) b p = kmul (v p) (mvmul (jrows ts) (mtr (mtr Dn)) b p)).
        { unfold mvmul. rewrite <- ksum_mul_l. apply ksum_ext. intros r Hr. unfold mtr. ring. }
        assert (A2 : mvmul (total l) (mmul (jrows ts) (mtr (fun r c0 => kmul (mtr Dn r c0) (v c0))) (fun r c0 => kmul (mtr Dn r c0) (v c0))) y p =
                     kmul (v p) (mvmul (total l) (mmul (jrows ts) (mtr (mtr Dn)) (mtr Dn)) (fun i => kmul (v i) (y i)) p)).
        { unfold mvmul. rewrite <- ksum_mul_l. apply ksum_ext. intros q Hq'.
          assert (A3 : mmul (jrows ts) (mtr (fun r c0 => kmul (mtr Dn r c0) (v c0))) (fun r c0 => kmul (mtr Dn r c0) (v c0)) p q = kmul (kmul (v p) (v q)) (mmul (jrows ts) (mtr (mtr Dn)) (mtr Dn) p q)).
          { unfold mmul. rewrite <- ksum_mul_l. apply ksum_ext. intros r Hr. unfold mtr. ring. }
          rewrite A3. ring. }
        rewrite A1, A2. ring. }
      apply (Hn eq_refl (mtr Dn) p _ Vj Hp) in Z.
      transitivity (kadd (ksub (mvmul (total l) (mmul (jrows ts) (mtr (mtr Dn)) (mtr Dn)) (fun i => kmul (v i) (y i)) p) (mvmul (jrows ts) (mtr (mtr Dn)) b p)) (mvmul (jrows ts) (mtr (mtr Dn)) b p)); [ring|].
      rewrite Z. ring.
    - cbn [bind] in H. injection H as _ H. apply Hq in H. exact H.
  Qed.

  (** dense QR *)
  Lemma dq_term_ok : forall l row t J r b i, layout_ok l -> b < length l -> i < bsize l b -> lterm_ok l t ->
    dq_term l row t J r (base l b + i) = if (row <=? r) && (r <? row + lt_dim t) then match SBM_Model.find b (wjac t) with Some B => B (r - row) i | None => J r (base l b + i) end else J r (base l b + i).
  Proof.
    intros l row t J r b i Lo Hb Hi (S & F). unfold dq_term. assert (F' : Forall (fun e => fst e < length l) (wjac t)) by (unfold wjac; rewrite Forall_map; exact F).
    assert (S' : StronglySorted lt (map fst (wjac t))) by (unfold wjac; rewrite map_map; exact S). clear S F. revert J.
    induction (wjac t) as [|[k B] es IH]; intros J; cbn [fold_left SBM_Model.find]; [destruct (_ && _); auto|]. inversion F' as [|? ? Fk F2]; subst. cbn [map fst snd] in *.
    apply StronglySorted_inv in S'. destruct S' as [S2 Fs]. rewrite IH by auto. unfold write_block.
    rewrite <- andb_assoc. rewrite (tile_test l k b i) by auto. rewrite (Nat.eqb_sym b k).
    destruct ((row <=? r) && (r <? row + lt_dim t)); cbn [andb]; auto.
    destruct (Nat.eqb_spec k b) as [->|N]; auto. rewrite (proj2 (SBM_Proofs.find_none es b)) by (intros Hin; rewrite Forall_forall in Fs; specialize (Fs _ Hin); lia).
    f_equal. lia.
  Qed.
  Lemma dq_terms_ok : forall l ts row J r b i, layout_ok l -> b < length l -> i < bsize l b -> Forall (lterm_ok l) ts ->
    (forall r, row <= r -> J r (base l b + i) = k0) ->
    dq_terms l ts row J r (base l b + i) = if r <? row then J r (base l b + i) else J_of l ts (r - row) (base l b + i).
  Proof.
    intros l ts. induction ts as [|t ts IH]; intros row J r b i Lo Hb Hi F Z; cbn [dq_terms J_of].
    - destruct (Nat.ltb_spec r row); auto.
    - inversion F as [|? ? T F']; subst. rewrite IH; auto.
      + rewrite dq_term_ok by auto. destruct (Nat.ltb_spec r (row + lt_dim t)) as [L|L].
        * destruct (Nat.leb_spec row r) as [L2|L2]; cbn [andb].
          -- rewrite (proj2 (Nat.ltb_ge r row)) by lia. rewrite (proj2 (Nat.ltb_lt (r - row) (lt_dim t))) by lia. rewrite <- (wjac_tile l t) by auto. unfold X.
             destruct (SBM_Model.find b (wjac t)); auto.
          -- rewrite (proj2 (Nat.ltb_lt r row)) by lia. auto.
        * rewrite (proj2 (Nat.ltb_ge r row)) by lia. rewrite (proj2 (Nat.ltb_ge (r - row) (lt_dim t))) by lia. f_equal. lia.
      + intros r' Hr. rewrite dq_term_ok by auto. rewrite (proj2 (Nat.ltb_ge r' (row + lt_dim t))) by lia. rewrite andb_false_r. apply Z. lia.
  Qed.
  Lemma dq_build_ok : forall l ts e x r q, layout_ok l -> Forall (lterm_ok l) ts -> q < total l -> dq_J (dq_build l ts e x) r q = J_of l ts r q.
  Proof.
    intros l ts e x r q Lo F Hq. rewrite total_base in Hq. destruct (tile_exists l q (length l) Lo (le_n _) Hq) as (b & i & Hb & Hi & ->). cbn [dq_build dq_J]. rewrite dq_terms_ok by auto.
    cbn [Nat.ltb Nat.leb]. rewrite Nat.sub_0_r. auto.
  Qed.

  Lemma c48_dense : forall hqr garbage (x : dq K) use, dq_use x = Some use -> depends_on_input hqr -> exists x' dx, dq_solve hqr garbage x = Ok (x', dx) /\
    meq (dq_rows x) (dq_cols x) (dq_J x') (dq_J x) /\ veq (dq_rows x) (dq_e x') (dq_e x) /\ dq_rows x' = dq_rows x /\ dq_cols x' = dq_cols x /\ dq_rhs x' = dq_rhs x /\ dq_c x' = dq_c x /\ dq_use x' = dq_use x /\
    exists x'' dx', dq_solve hqr garbage x' = Ok (x'', dx') /\ veq (dq_cols x) dx' dx.
  Proof.
    intros hqr garbage x use U Hd. unfold dq_solve. rewrite U. eexists. eexists. split; [reflexivity|]. cbn [dq_J dq_e dq_rows dq_cols dq_rhs dq_c dq_use].
    split.
    { intros r c Hr Hc. destruct use; auto. unfold resize_rows. rewrite (proj2 (Nat.ltb_lt r (dq_rows x)) Hr). rewrite (proj2 (Nat.leb_gt (dq_rows x) r) Hr). auto. }
    split.
    { intros r Hr. destruct use; auto. unfold resize_vec. rewrite (proj2 (Nat.ltb_lt r (dq_rows x)) Hr). rewrite (proj2 (Nat.leb_gt (dq_rows x) r) Hr). auto. }
    split; auto. split; auto. split; auto. split; auto. split; auto. eexists. eexists. split; [reflexivity|]. destruct use; [|apply veq_refl]. apply Hd.
    - intros r c Hr Hc. destruct (Nat.leb_spec (dq_rows x) r) as [L|L]; auto. unfold resize_rows. rewrite (proj2 (Nat.ltb_lt r (dq_rows x)) L). rewrite (proj2 (Nat.leb_gt (dq_rows x) r) L). auto.
    - intros r Hr. destruct (Nat.leb_spec (dq_rows x) r) as [L|L]; auto. unfold resize_vec. rewrite (proj2 (Nat.ltb_lt r (dq_rows x)) L). rewrite (proj2 (Nat.leb_gt (dq_rows x) r) L). auto.
  Qed.

  Lemma c49_dense : forall hqr garbage l ts e0 x use, layout_ok l -> Forall (lterm_ok l) ts -> dq_rows x = jrows ts -> dq_cols x = total l -> dq_use x = Some use ->
    solves_problem hqr (if use : bool then jrows ts + total l else jrows ts) (total l) (above_diag use (jrows ts) (J_of l ts) (dq_c x)) (above_zero (jrows ts) (e_of ts)) ->
    exists x' dx, dq_solve hqr garbage (dq_build l ts (eval_errors ts 0 e0) x) = Ok (x', dx) /\
      normal_equations (jrows ts) (total l) (J_of l ts) (e_of ts) (fun p => if use : bool then dq_c x p else k0) dx.
  Proof.
    intros hqr garbage l ts e0 x use Lo F Er Ec U Hl. unfold dq_solve. change (dq_use (dq_build l ts (eval_errors ts 0 e0) x)) with (dq_use x). rewrite U.
    eexists. eexists. split; [reflexivity|]. set (y := dq_build l ts (eval_errors ts 0 e0) x).
    assert (Vj : forall r q, q < total l -> dq_J y r q = J_of l ts r q) by (intros; apply dq_build_ok; auto).
    change (dq_rows y) with (dq_rows x). change (dq_cols y) with (dq_cols x). change (dq_c y) with (dq_c x). change (dq_e y) with (eval_errors ts 0 e0). rewrite Er, Ec. unfold normal_equations.
    assert (Vb : forall i, i < jrows ts -> eval_errors ts 0 e0 i = kopp (e_of ts i)) by (intros i Hi; rewrite eval_errors_ok by lia; rewrite Nat.sub_0_r; auto).
    match goal with |- solves_eq _ _ (hqr ?n ?m ?A ?b) _ => assert (Q : least_squares n m (above_diag use (jrows ts) (J_of l ts) (dq_c x)) (above_zero (jrows ts) (e_of ts)) (hqr n m A b)) end.
    { apply Hl.
      - intros r q Hr Hq. unfold above_diag. destruct use.
        + unfold resize_rows. destruct (Nat.leb_spec (jrows ts) r) as [L|L]; [rewrite (proj2 (Nat.ltb_ge r (jrows ts)) L)|rewrite (proj2 (Nat.ltb_lt r (jrows ts)) L), Vj by auto]; auto.
        + rewrite (proj2 (Nat.ltb_lt r (jrows ts)) Hr). auto.
      - intros r Hr. unfold above_zero. destruct use.
        + unfold resize_vec. destruct (Nat.leb_spec (jrows ts) r) as [L|L]; [rewrite (proj2 (Nat.ltb_ge r (jrows ts)) L)|rewrite (proj2 (Nat.ltb_lt r (jrows ts)) L), Vb by auto]; auto.
        + rewrite (proj2 (Nat.ltb_lt r (jrows ts)) Hr). auto. }
    revert Q. unfold least_squares. apply solves_ext.
    - intros p q Hp Hq. destruct use.
      + rewrite <- (damped_split (jrows ts) (J_of l ts) (dq_c x) (total l) p q Hp Hq). unfold mmul, mtr, above_diag. cbn [andb]. apply ksum_ext. intros r Hr.
        rewrite (Nat.eqb_sym p), (Nat.eqb_sym q). destruct (r <? jrows ts); auto.
      + unfold damped_normal, mmul, mtr, above_diag. rewrite (ksum_ext (jrows ts) (fun r => kmul (J_of l ts r p) (J_of l ts r q)) (fun r => kmul (if r <? jrows ts then J_of l ts r p else k0) (if r <? jrows ts then J_of l ts r q else k0))); [cbn [andb]; ring|].
        intros r Hr. rewrite (proj2 (Nat.ltb_lt r (jrows ts)) Hr). auto.
    - intros p Hp. assert (A1 : ksum (jrows ts) (fun r => kmul (above_diag use (jrows ts) (J_of l ts) (dq_c x) r p) (above_zero (jrows ts) (e_of ts) r)) = kopp (mvmul (jrows ts) (mtr (J_of l ts)) (e_of ts) p)).
      { unfold mvmul, mtr. rewrite <- ksum_opp. apply ksum_ext. intros r Hr. unfold above_diag, above_zero. rewrite (proj2 (Nat.ltb_lt r (jrows ts)) Hr). ring. }
      destruct use; [|exact A1]. unfold mvmul at 1, mtr at 1. rewrite ksum_split. rewrite A1.
      rewrite (ksum_zero (total l)) by (intros i Hi; unfold above_zero; rewrite (proj2 (Nat.ltb_ge (jrows ts + i) (jrows ts))) by lia; ring). ring.
  Qed.

  (** C61 *)
  Lemma c61_sparse : forall l ts e c use m x, buildable l ts m -> sc_build l ts e c use m = Ok x ->
    sc_rhsJtJrhs x = Ok (vdot (jrows ts) (mvmul (total l) (J_of l ts) (sc_rhs x)) (mvmul (total l) (J_of l ts) (sc_rhs x))).
  Proof.
    intros l ts e c use m x B E. destruct (sc_build_ok l ts e c use m B) as (x0 & E0 & W & St & Cr & Cc & D & V & _). rewrite E in E0. injection E0 as <-.
    unfold sc_rhsJtJrhs. destruct (CCM_Proofs3.left_ok (sc_J x) _ (sc_rhs x) W St) as (y & Ey & Vy). rewrite Ey. cbn [bind]. f_equal.
    assert (UC : used_cols (sc_J x) = jrows ts) by (unfold used_cols; rewrite D; auto). rewrite UC in *.
    assert (Q : veq (jrows ts) y (mvmul (total l) (J_of l ts) (sc_rhs x))) by (intros r Hr; rewrite Vy by auto; rewrite Cr; reflexivity). apply vdot_ext; exact Q.
  Qed.
  Lemma c61_dense : forall l ts e x, layout_ok l -> Forall (lterm_ok l) ts -> dq_rows x = jrows ts -> dq_cols x = total l -> let y := dq_build l ts e x in
    dq_rhsJtJrhs y = vdot (jrows ts) (mvmul (total l) (J_of l ts) (dq_rhs y)) (mvmul (total l) (J_of l ts) (dq_rhs y)).
  Proof.
    intros l ts e x Lo F Er Ec y. unfold dq_rhsJtJrhs. change (dq_rows y) with (dq_rows x). change (dq_cols y) with (dq_cols x). rewrite Er, Ec.
    assert (Q : veq (jrows ts) (mvmul (total l) (dq_J y) (dq_rhs y)) (mvmul (total l) (J_of l ts) (dq_rhs y))).
    { intros r Hr. unfold mvmul. apply ksum_ext. intros q Hq. unfold y at 1. rewrite dq_build_ok by auto. auto. }
    apply vdot_ext; exact Q.
  Qed.
End LSP2.
