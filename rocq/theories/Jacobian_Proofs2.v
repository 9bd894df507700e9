(** * Lemmas: dense expansion, prescaling, merging, Hessian assembly *)
From Coq Require Import Arith Lia List ZArith NArith Bool Ring Sorted Permutation.
From Verif Require Import Lib_Ring Lib_Res MatrixStack_Model MatrixStack_Spec MatrixStack_Proofs
  DesignVar_Base Jacobian_Model Jacobian_Spec Jacobian_Proofs.
Import ListNotations.

Section Proofs.
Context {K : Type} {R : CRing K}.
Add Ring Kring : (@kring K R).
Notation dvar := (dvar K).
Notation jmap := (@jmap K).
Notation dmat := (@dmat K).
Notation blk e := (dv_block (fst e)).

Lemma sorted_tl : forall e (m : jmap), sorted (e :: m) -> sorted m.
Proof. intros e m H; inversion H; auto. Qed.
Lemma sorted_hd : forall e (m : jmap), sorted (e :: m) -> forall e', In e' m -> (blk e < blk e')%Z.
Proof. intros e m H e' He'. inversion H; subst. rewrite Forall_forall in H3. apply (H3 e' He'). Qed.

(** ** dense expansion of the sparse container *)
Definition in_blk (cbi : list nat) (e : dvar * dmat) (i j : nat) : bool :=
  let b := block_base cbi (dv_block (fst e)) in
  (b <=? j) && (j <? b + d_cols (snd e)) && (i <? d_rows (snd e)).

Lemma asDense_fold : forall cbi m D i j,
  (forall e, In e m -> in_blk cbi e i j = false) ->
  fold_left (fun D e => place (block_base cbi (dv_block (fst e))) (snd e) D) m D i j = D i j.
Proof.
  induction m as [|e m IH]; intros D i j H; [reflexivity|].
  cbn [fold_left]. rewrite IH by (intros; apply H; right; auto).
  unfold place. specialize (H e (or_introl eq_refl)). unfold in_blk in H. rewrite H. reflexivity.
Qed.

Lemma asDense_fold_in : forall cbi m D i j e,
  sorted m -> In e m -> in_blk cbi e i j = true ->
  (forall e', In e' m -> blk e' <> blk e -> in_blk cbi e' i j = false) ->
  fold_left (fun D e => place (block_base cbi (dv_block (fst e))) (snd e) D) m D i j
  = d_at (snd e) i (j - block_base cbi (dv_block (fst e))).
Proof.
  induction m as [|e0 m IH]; intros D i j e Hs Hin Hb Hoth; [contradiction|].
  cbn [fold_left]. destruct Hin as [->|Hin].
  - rewrite asDense_fold.
    + unfold place. unfold in_blk in Hb. rewrite Hb. reflexivity.
    + intros e' He'. apply Hoth; [right; auto|]. pose proof (sorted_hd _ _ Hs e' He'). lia.
  - apply IH; auto. eapply sorted_tl; eauto. intros; apply Hoth; auto; right; auto.
Qed.

Lemma sparse_dense_agree : forall n cols al evs cs fs cbi,
  0 < al -> (N.of_nat n < 65536)%N -> cruns n al [] evs cs fs -> wf_dvs (event_dvs evs) ->
  wf_cols cols (event_dvs evs) ->
  (forall d, In d (event_dvs evs) -> dv_active d = true ->
      Z.of_nat (block_base cbi (dv_block d)) = dv_col d) ->
  exists cS cD, jc_run _ sp_addJ al (sp_init n) (map cop_of evs) = Ok cS /\
    jc_run _ de_addJ al (de_init n cols) (map cop_of evs) = Ok cD /\
    forall i j, i < n -> sp_asDense cbi (jc_store cS) i j = de_mat (jc_store cD) i j.
Proof.
  intros n cols al evs cs fs cbi Hal Hn H W WC Hcb.
  destruct (sparse_run n al evs cs fs Hal Hn H W) as (cS & ES & _ & P1 & P2 & P3 & P4).
  destruct (dense_run n cols al evs cs fs Hal Hn H W WC) as (cD & ED & _ & Q1 & Q2 & Q3 & Q4 & Q5).
  exists cS, cD. split; auto. split; auto.
  pose proof (cruns_dvs _ _ _ _ _ _ H) as Hdv.
  intros i j Hi. unfold sp_asDense.
  destruct (existsb (fun e => in_blk cbi e i j) (jc_store cS)) eqn:Ex.
  - apply existsb_exists in Ex. destruct Ex as (e & He & Hb).
    rewrite (asDense_fold_in cbi (jc_store cS) mzero i j e P2 He Hb).
    + destruct e as [d M]. destruct (P3 d M He) as (A1 & A2 & A3 & A4 & A5). cbn [fst snd].
      unfold in_blk in Hb. cbn [fst snd] in Hb.
      rewrite !andb_true_iff, Nat.leb_le, !Nat.ltb_lt in Hb. destruct Hb as [[B1 B2] B3].
      rewrite Hdv in A2. pose proof (Hcb d A2 A1) as Ecb.
      assert (Ec : block_base cbi (dv_block d) = Z.to_nat (dv_col d)) by lia.
      rewrite Ec in *. rewrite A5 by (auto; lia).
      rewrite <- (Q4 d i (j - Z.to_nat (dv_col d)) A2 A1 Hi ltac:(lia)).
      f_equal. lia.
    + intros [d' M'] He' Hne. cbn [fst] in Hne.
      destruct e as [d M]. destruct (P3 d M He) as (A1 & A2 & A3 & A4 & A5).
      destruct (P3 d' M' He') as (B1 & B2 & B3 & B4 & B5). cbn [fst] in *.
      unfold in_blk in *. cbn [fst snd] in *.
      rewrite !andb_true_iff, Nat.leb_le, !Nat.ltb_lt in Hb.
      rewrite Hdv in A2, B2. pose proof (Hcb d A2 A1). pose proof (Hcb d' B2 B1).
      assert (Hdd : d <> d') by congruence.
      pose proof (proj2 WC d d' A2 B2 A1 B1 Hdd).
      rewrite !andb_false_iff, Nat.leb_gt, !Nat.ltb_ge. rewrite B4. rewrite A4 in Hb. lia.
  - rewrite asDense_fold.
    + unfold mzero. symmetry. apply Q5. intros d Hd Ha [Hr1 Hr2].
      rewrite <- Hdv in Hd. destruct (P4 d Hd Ha) as (M & HM).
      destruct (P3 d M HM) as (A1 & A2 & A3 & A4 & A5).
      rewrite Hdv in A2. pose proof (Hcb d A2 A1).
      assert (in_blk cbi (d, M) i j = true).
      { unfold in_blk; cbn [fst snd]. rewrite !andb_true_iff, Nat.leb_le, !Nat.ltb_lt, A3, A4. lia. }
      assert (existsb (fun e => in_blk cbi e i j) (jc_store cS) = true).
      { apply existsb_exists. eauto. }
      congruence.
    + intros e He. destruct (in_blk cbi e i j) eqn:E; auto.
      assert (existsb (fun e => in_blk cbi e i j) (jc_store cS) = true) by (apply existsb_exists; eauto).
      congruence.
Qed.

(** ** prescaled container *)
Lemma total_ext : forall n (D : list dvar) (cs cs' : list (@contribution K)) d i j, wf_dvs D ->
  incl (map fst cs) D -> In d D ->
  Forall2 (ceq n) cs cs' -> i < n -> j < dv_dim d -> total cs d i j = total cs' d i j.
Proof.
  intros n D cs cs' d i j W HD Hd HF Hi Hj. induction HF as [|c c' cs cs' [E1 E2] HF IH]; [reflexivity|].
  assert (HD' : incl (map fst cs) D) by (intros x Hx; apply HD; right; auto).
  assert (Hc : In (fst c) D) by (apply HD; left; auto).
  destruct (Nat.eq_dec (dv_id (fst c)) (dv_id d)) as [Eid|Nid].
  - assert (fst c = d) by (apply (proj1 W); auto).
    rewrite (total_cons_same c), (total_cons_same c') by congruence. rewrite IH by auto. rewrite E2; auto.
    rewrite H. auto.
  - rewrite (total_cons_other c), (total_cons_other c') by congruence. apply IH; auto.
Qed.

Lemma Forall2_map_fst : forall n (cs cs' : list (@contribution K)), Forall2 (ceq n) cs cs' -> map fst cs = map fst cs'.
Proof. intros n cs cs' H; induction H as [|c c' cs cs' [E _] _ IH]; cbn; congruence. Qed.

Lemma spP_ext : forall n D cs cs' m, wf_dvs D -> Forall2 (ceq n) cs cs' -> spP n D cs m -> spP n D cs' m.
Proof.
  intros n D cs cs' m W HF (P1 & P2 & P3 & P4).
  pose proof (Forall2_map_fst _ _ _ HF) as E.
  unfold spP. rewrite <- E. repeat split; auto; try (apply (P3 d M H)).
  intros i j Hi Hj. destruct (P3 d M H) as (A1 & A2 & A3 & A4 & A5).
  rewrite A5 by auto. apply total_ext with (n := n) (D := D); auto.
Qed.

Lemma Forall2_refl_ceq : forall n (cs : list (@contribution K)), Forall2 (ceq n) cs cs.
Proof. induction cs; constructor; auto. split; [reflexivity|apply meq_refl]. Qed.

(** contributions of a prescaled container that wraps a sparse one whose chain is [fs0] *)
Definition outer_contrib (n : nat) (fs0 : list (@factor K)) (a : K) (c : @contribution K) : @contribution K :=
  (fst c, mmul (prod_cols n fs0) (prod_mat n fs0) (mscale a (snd c))).

(** one add() on the wrapped container *)
Lemma inner_add : forall n al D fs0 (c : container jmap) cs d J C,
  0 < al -> wf_dvs D -> Inv n al (jc_stack c) fs0 -> spP n D cs (jc_store c) -> In d D ->
  d_rows J = prod_cols n fs0 -> d_cols J = dv_dim d ->
  meq (prod_cols n fs0) (dv_dim d) (d_at J) C ->
  exists c', jc_add _ sp_addJ c d J = Ok c' /\ Inv n al (jc_stack c') fs0 /\
    spP n D (cs ++ [(d, mmul (prod_cols n fs0) (prod_mat n fs0) C)]) (jc_store c').
Proof.
  intros n al D fs0 c cs d J C Hal W HI HP Hd Hr Hc HJ.
  destruct (generic_run _ sp_addJ n al D Hal (spP n D) W (spP_add n D W) (spP_inactive n D W)
     fs0 [EAdd d (d_rows J) (d_at J)] [(d, mmul (d_rows J) (prod_mat n fs0) (d_at J))] fs0) with (c := c) (cs0 := cs)
     as (c' & E & I & P'); auto.
  - constructor; auto. constructor.
  - intros x [<-|[]]; auto.
  - exists c'. cbn [map cop_of jc_run jc_step] in E. rewrite <- Hc in E.
    destruct J as [jr jcl jat]. cbn [d_rows d_cols d_at] in *.
    destruct (jc_add jmap sp_addJ c d (mkD jr jcl jat)); cbn [bind] in E; try discriminate.
    injection E as ->. split; auto. split; auto.
    eapply spP_ext; [exact W| |exact P'].
    apply Forall2_app; [apply Forall2_refl_ceq|]. constructor; [|constructor].
    split; cbn; auto. rewrite Hr. apply mmul_ext; [apply meq_refl|exact HJ].
Qed.

Lemma prescaled_run : forall n al D fs0 a fs evs cs fs', 0 < al -> wf_dvs D ->
  cruns (prod_cols n fs0) al fs evs cs fs' -> incl (event_dvs evs) D ->
  forall (c : container (container jmap)) cs0,
  Inv (prod_cols n fs0) al (jc_stack c) fs ->
  Inv n al (jc_stack (jc_store c)) fs0 -> spP n D cs0 (jc_store (jc_store c)) ->
  exists c', ps_run sp_addJ al a c (map cop_of evs) = Ok c' /\
    Inv (prod_cols n fs0) al (jc_stack c') fs' /\
    Inv n al (jc_stack (jc_store c')) fs0 /\
    spP n D (cs0 ++ map (outer_contrib n fs0 a) cs) (jc_store (jc_store c')).
Proof.
  intros n al D fs0 a fs evs cs fs' Hal W H. set (n' := prod_cols n fs0) in *.
  induction H; intros HD c cs0 HI HI2 HP.
  - exists c. rewrite app_nil_r. auto.
  - destruct (step_push n' al (jc_stack c) fs f Hal HI H H0) as (s1 & E1 & I1 & _).
    destruct (IHcruns HD (mkJC s1 (jc_store c)) cs0 I1 HI2 HP) as (c' & E' & I').
    exists c'. split; auto. cbn [map ps_run].
    destruct f as [r m M|b]; cbn [cop_of ps_step op_of ms_step] in *.
    + unfold jc_apply.
      assert (Hb : match ms_headers (jc_stack c) with [] => negb (ms_rows (jc_stack c) =? d_rows (mkD r m M)) | _ => false end = false).
      { destruct HI as (Hr & Hl & _). destruct (ms_headers (jc_stack c)); auto.
        destruct fs; [|contradiction]. cbn [prod_cols] in H. cbn [d_rows]. rewrite Hr, H, Nat.eqb_refl. reflexivity. }
      rewrite Hb, E1. cbn [bind]. exact E'.
    + unfold jc_apply_scalar. rewrite E1. cbn [bind]. exact E'.
  - destruct (step_pop n' al (jc_stack c) f fs HI) as (s1 & E1 & I1 & _).
    destruct (IHcruns HD (mkJC s1 (jc_store c)) cs0 I1 HI2 HP) as (c' & E' & I').
    exists c'. split; auto. cbn [map ps_run cop_of ps_step]. unfold jc_end.
    cbn [ms_step] in E1. rewrite E1. cbn [bind]. exact E'.
  - assert (Hd : In d D) by (apply HD; cbn; left; reflexivity).
    assert (HD' : incl (event_dvs evs) D) by (intros x Hx; apply HD; cbn; right; exact Hx).
    cbn [map ps_run cop_of ps_step]. unfold ps_add.
    assert (exists Jd, (match ms_headers (jc_stack c) with
       | [] => do st <- ps_addJ sp_addJ a (jc_store c) d (mkD r (dv_dim d) J); Ok (mkJC (jc_stack c) st)
       | _ => do CR <- ms_top (jc_stack c);
         if negb (d_cols CR =? d_rows (mkD r (dv_dim d) J)) then UB
         else do st <- ps_addJ sp_addJ a (jc_store c) d (dmul CR (mkD r (dv_dim d) J)); Ok (mkJC (jc_stack c) st)
       end) = (do st <- ps_addJ sp_addJ a (jc_store c) d Jd; Ok (mkJC (jc_stack c) st)) /\
       d_rows Jd = n' /\ d_cols Jd = dv_dim d /\ meq n' (dv_dim d) (d_at Jd) (mmul r (prod_mat n' fs) J)) as (Jd & -> & J1 & J2 & J3).
    { destruct (ms_headers (jc_stack c)) as [|h hs] eqn:Hh.
      - destruct HI as (Hr & Hl & _). rewrite Hh in Hl. destruct fs; [|contradiction].
        cbn [prod_cols] in H. subst r.
        eexists; split; [reflexivity|]. cbn. repeat split. apply meq_sym, mmul_id_l.
      - destruct fs as [|f fs]. { destruct HI as (_ & Hl & _). rewrite Hh in Hl. contradiction. }
        destruct (Inv_top n' al (jc_stack c) f fs HI) as (v & V1 & V2 & V3 & V4).
        rewrite V1. cbn [bind d_rows]. rewrite V3, <- H, Nat.eqb_refl. cbn [negb].
        eexists; split; [reflexivity|]. cbn [dmul d_rows d_cols d_at]. repeat split; auto.
        rewrite V3, <- H. apply mmul_ext; [|apply meq_refl]. rewrite H, <- V3; auto. }
    unfold ps_addJ at 1.
    destruct (inner_add n al D fs0 (jc_store c) cs0 d (dscale a Jd) (mscale a (mmul r (prod_mat n' fs) J)) Hal W HI2 HP Hd)
      as (c1 & E1 & I1 & P1); cbn [dscale d_rows d_cols d_at]; auto.
    { intros i j Hi Hj. unfold mscale. rewrite J3 by auto. reflexivity. }
    rewrite E1. cbn [bind].
    destruct (IHcruns HD' (mkJC (jc_stack c) c1) _ HI I1 P1) as (c' & E' & A1 & A2 & A3).
    exists c'. split; [exact E'|]. split; [exact A1|]. split; [exact A2|].
    rewrite <- app_assoc in A3. exact A3.
  - assert (Hd : In d D) by (apply HD; cbn; left; reflexivity).
    assert (HD' : incl (event_dvs evs) D) by (intros x Hx; apply HD; cbn; right; exact Hx).
    cbn [map ps_run cop_of ps_step]. unfold ps_add_id.
    assert (exists Jd, (match ms_headers (jc_stack c) with
       | [] => do st <- ps_addJ sp_addJ a (jc_store c) d (didentity (ms_rows (jc_stack c)) (dv_dim d)); Ok (mkJC (jc_stack c) st)
       | _ => do CR <- ms_top (jc_stack c);
         do st <- ps_addJ sp_addJ a (jc_store c) d (dmul CR (didentity (d_cols CR) (dv_dim d))); Ok (mkJC (jc_stack c) st)
       end) = (do st <- ps_addJ sp_addJ a (jc_store c) d Jd; Ok (mkJC (jc_stack c) st)) /\
       d_rows Jd = n' /\ d_cols Jd = dv_dim d /\ meq n' (dv_dim d) (d_at Jd) (prod_mat n' fs)) as (Jd & -> & J1 & J2 & J3).
    { destruct (ms_headers (jc_stack c)) as [|h hs] eqn:Hh.
      - destruct HI as (Hr & Hl & _). rewrite Hh in Hl. destruct fs; [|contradiction].
        eexists; split; [reflexivity|]. cbn. repeat split; auto. 
      - destruct fs as [|f fs]. { destruct HI as (_ & Hl & _). rewrite Hh in Hl. contradiction. }
        destruct (Inv_top n' al (jc_stack c) f fs HI) as (v & V1 & V2 & V3 & V4).
        rewrite V1. cbn [bind].
        eexists; split; [reflexivity|]. cbn [dmul didentity d_rows d_cols d_at]. repeat split; auto.
        rewrite V3, <- H in *. eapply meq_trans; [apply mmul_id_r|]. exact V4. }
    unfold ps_addJ at 1.
    destruct (inner_add n al D fs0 (jc_store c) cs0 d (dscale a Jd) (mscale a (prod_mat n' fs)) Hal W HI2 HP Hd)
      as (c1 & E1 & I1 & P1); cbn [dscale d_rows d_cols d_at]; auto.
    { intros i j Hi Hj. unfold mscale. rewrite J3 by auto. reflexivity. }
    rewrite E1. cbn [bind].
    destruct (IHcruns HD' (mkJC (jc_stack c) c1) _ HI I1 P1) as (c' & E' & A1 & A2 & A3).
    exists c'. split; [exact E'|]. split; [exact A1|]. split; [exact A2|].
    rewrite <- app_assoc in A3. exact A3.
Qed.

(** ** merging *)
Definition get (m : jmap) (b : Z) : option (dvar * dmat) := find (fun e => (blk e =? b)%Z) m.

Lemma get_In : forall m b e, get m b = Some e -> In e m /\ blk e = b.
Proof. intros m b e H. apply find_some in H. destruct H as [H1 H2]. apply Z.eqb_eq in H2. auto. Qed.
Lemma get_None : forall m b, get m b = None -> forall e, In e m -> blk e <> b.
Proof. intros m b H e He Hb. apply (find_none _ _ H) in He. apply Z.eqb_neq in He. auto. Qed.
Lemma get_sorted_In : forall m e, sorted m -> In e m -> get m (blk e) = Some e.
Proof.
  induction m as [|e0 m IH]; intros e Hs Hin; [contradiction|].
  unfold get; cbn [find]. destruct Hin as [->|Hin].
  - rewrite Z.eqb_refl. reflexivity.
  - pose proof (sorted_hd _ _ Hs e Hin). rewrite (proj2 (Z.eqb_neq _ _)) by lia.
    apply IH; auto. eapply sorted_tl; eauto.
Qed.
Lemma get_notin : forall m b, (forall e, In e m -> blk e <> b) -> get m b = None.
Proof.
  induction m as [|e m IH]; intros b H; [reflexivity|]. unfold get; cbn [find].
  rewrite (proj2 (Z.eqb_neq _ _)) by (apply H; left; auto). apply IH. intros; apply H; right; auto.
Qed.

Lemma map_insert_spec : forall m d J, sorted m ->
  sorted (map_insert m d J) /\
  (forall b, get (map_insert m d J) b =
     if (b =? dv_block d)%Z then match get m b with Some e => Some e | None => Some (d, J) end else get m b) /\
  (forall e, In e (map_insert m d J) -> In e m \/ e = (d, J)).
Proof.
  induction m as [|e m IH]; intros d J Hs.
  - cbn. split; [repeat constructor|]. split; [|intuition].
    intros b. unfold get; cbn. rewrite Z.eqb_sym. destruct (b =? dv_block d)%Z; reflexivity.
  - destruct e as [d' M]. cbn [map_insert].
    destruct (Z.ltb_spec (dv_block d) (dv_block d')).
    + split; [|split].
      * constructor; auto. constructor; [exact H|]. apply Forall_forall. intros e He.
        pose proof (sorted_hd _ _ Hs e He). unfold blk_lt; cbn in *. lia.
      * intros b. unfold get; cbn [find fst]. rewrite (Z.eqb_sym (dv_block d) b).
        destruct (Z.eqb_spec b (dv_block d)); auto.
        subst b. rewrite (proj2 (Z.eqb_neq _ _)) by lia.
        assert (Hf : get m (dv_block d) = None).
        { apply get_notin. intros e He. pose proof (sorted_hd _ _ Hs e He). cbn in *. lia. }
        unfold get in Hf. rewrite Hf. reflexivity.
      * intros e [<-|He]; auto.
    + destruct (Z.ltb_spec (dv_block d') (dv_block d)).
      * destruct (IH d J (sorted_tl _ _ Hs)) as (S & G & I). split; [|split].
        -- constructor; auto. apply Forall_forall. intros e He. apply I in He.
           destruct He as [He| ->]; [apply (sorted_hd _ _ Hs e He)|exact H0].
        -- intros b. unfold get; cbn [find fst]. specialize (G b). unfold get in G.
           destruct (Z.eqb_spec (dv_block d') b).
           ++ subst b. rewrite (proj2 (Z.eqb_neq _ _)) by lia. reflexivity.
           ++ exact G.
        -- intros e [<-|He]; [left; left; auto|]. apply I in He. destruct He; [left; right|right]; auto.
      * split; [exact Hs|]. split; [|auto].
        intros b. destruct (Z.eqb_spec b (dv_block d)); auto. subst b.
        unfold get; cbn [find fst]. rewrite (proj2 (Z.eqb_eq _ _)) by lia. reflexivity.
Qed.

Lemma map_update_add_spec : forall m d X M d0, sorted m -> get m (dv_block d) = Some (d0, M) ->
  same_dims M X = true ->
  exists m', map_update_add m d X = Ok m' /\ sorted m' /\
   (forall b, get m' b = if (b =? dv_block d)%Z then Some (d0, dadd M X) else get m b) /\
   (forall e, In e m' -> In e m \/ e = (d0, dadd M X)) /\ map fst m' = map fst m.
Proof.
  induction m as [|[d' M'] m IH]; intros d X M d0 Hs Hg Hd; [discriminate|].
  cbn [map_update_add]. unfold get in Hg; cbn [find fst] in Hg.
  destruct (Z.eqb_spec (dv_block d') (dv_block d)).
  - injection Hg as -> ->. rewrite Hd. eexists; split; [reflexivity|].
    split; [|split; [|split]].
    + inversion Hs; subst. constructor; auto.
    + intros b. unfold get; cbn [find fst]. rewrite e, (Z.eqb_sym b).
      destruct (Z.eqb_spec (dv_block d) b); auto.
    + intros e0 [<-|He]; [right; auto|left; right; auto].
    + reflexivity.
  - destruct (IH d X M d0 (sorted_tl _ _ Hs) Hg Hd) as (m' & E & S & G & I & F).
    rewrite E. cbn [bind]. eexists; split; [reflexivity|]. split; [|split; [|split]].
    + constructor; auto. apply Forall_forall. intros e He. 
      assert (In (fst e) (map fst m)) by (rewrite <- F; apply in_map; auto).
      apply in_map_iff in H. destruct H as (e1 & E1 & H1).
      pose proof (sorted_hd _ _ Hs e1 H1). unfold blk_lt. cbn in *. rewrite <- E1. exact H.
    + intros b. unfold get; cbn [find fst]. specialize (G b). unfold get in G.
      destruct (Z.eqb_spec (dv_block d') b).
      * subst b. rewrite (proj2 (Z.eqb_neq (dv_block d') _)) by auto. reflexivity.
      * exact G.
    + intros e0 [<-|He]; [left; left; auto|]. apply I in He. destruct He; [left; right|right]; auto.
    + cbn. congruence.
Qed.

(** the block for key b of the sum of L and C*R *)
Definition comb (C : option dmat) (L Rm : jmap) (b : Z) : option (dvar * dmat) :=
  match get L b, get Rm b with
  | Some (d, M), Some (_, J) => Some (d, dadd M (maybe_chain C J))
  | Some e, None => Some e
  | None, Some (d, J) => Some (d, maybe_chain C J)
  | None, None => None
  end.

Definition has_key (rt : jmap) (b : Z) : bool := existsb (fun e => (blk e =? b)%Z) rt.
Lemma has_key_true : forall rt b, has_key rt b = true <-> exists e, In e rt /\ blk e = b.
Proof.
  intros. unfold has_key. rewrite existsb_exists. split; intros (e & H1 & H2); exists e; split; auto;
  apply Z.eqb_eq; auto.
Qed.
Lemma has_key_false : forall rt b, has_key rt b = false <-> forall e, In e rt -> blk e <> b.
Proof.
  intros. split.
  - intros H e He Hb. assert (has_key rt b = true) by (apply has_key_true; eauto). congruence.
  - intros H. destruct (has_key rt b) eqn:E; auto. apply has_key_true in E. destruct E as (e & He & Hb).
    destruct (H e He Hb).
Qed.

Section Merge.
Variable C : option dmat.
Variables L Rm : jmap.
Hypothesis HsL : sorted L.
Hypothesis HsR : sorted Rm.
Hypothesis Hids : forall e e', In e L -> In e' Rm -> blk e = blk e' -> dv_id (fst e') = dv_id (fst e).
Hypothesis Hdims : forall e e', In e L -> In e' Rm -> blk e = blk e' ->
  same_dims (snd e) (maybe_chain C (snd e')) = true.
Hypothesis HposL : forall e, In e L -> (0 <= blk e)%Z.
Hypothesis HposR : forall e, In e Rm -> (0 <= blk e)%Z.

Definition mInv (lo : Z) (rt m : jmap) : Prop :=
  sorted m /\
  (exists rpre, Rm = rpre ++ rt) /\
  (forall e, In e rt -> (lo <= blk e)%Z) /\
  (forall b, get m b = if has_key rt b && (lo <? b)%Z then get L b else comb C L Rm b).

Lemma suffix_sorted : forall (a b : jmap), sorted (a ++ b) -> sorted b.
Proof. induction a; intros; auto. apply IHa. eapply sorted_tl; eauto. Qed.

Lemma ffwd_spec : forall l rt m lo, mInv lo rt m -> (lo < l)%Z ->
  (forall e, In e L -> (blk e <= lo)%Z \/ (l <= blk e)%Z) ->
  let (rt1, m1) := ffwd C l rt m in
  sorted m1 /\ (exists rpre, Rm = rpre ++ rt1) /\ (forall e, In e rt1 -> (l <= blk e)%Z) /\
  (forall b, get m1 b = if has_key rt1 b && (lo <? b)%Z then get L b else comb C L Rm b).
Proof.
  induction rt as [|[dr Jr] rt IH]; intros m lo (I1 & (rpre & I2) & I3 & I4) Hlo HL; cbn [ffwd].
  - repeat split; auto. exists rpre; auto. intros e [].
  - destruct (Z.ltb_spec (dv_block dr) l).
    + destruct (map_insert_spec m dr (maybe_chain C Jr) I1) as (S & G & I).
      assert (HinR : In (dr, Jr) Rm) by (rewrite I2; apply in_or_app; right; left; auto).
      apply IH; auto. split; [exact S|]. split. { exists (rpre ++ [(dr, Jr)]). rewrite <- app_assoc; auto. }
      split. { intros; apply I3; right; auto. }
      assert (Hsr : sorted ((dr, Jr) :: rt)) by (apply (suffix_sorted rpre); rewrite <- I2; auto).
      assert (Hk : has_key rt (dv_block dr) = false).
      { apply has_key_false. intros e He. pose proof (sorted_hd _ _ Hsr e He). cbn in *. lia. }
      intros b. rewrite G, I4. cbn [has_key existsb fst]. fold (has_key rt b).
      destruct (Z.eqb_spec b (dv_block dr)).
      * subst b. rewrite Z.eqb_refl. cbn [orb andb].
        rewrite Hk. cbn [andb].
        assert (gR : get Rm (dv_block dr) = Some (dr, Jr)) by (apply (get_sorted_In Rm (dr, Jr)); auto).
        pose proof (I3 (dr, Jr) (or_introl eq_refl)) as Hge. cbn in Hge.
        destruct (Z.ltb_spec lo (dv_block dr)).
        -- assert (gL : get L (dv_block dr) = None).
           { apply get_notin. intros e He. specialize (HL e He). lia. }
           rewrite gL. unfold comb. rewrite gL, gR. reflexivity.
        -- destruct (comb C L Rm (dv_block dr)) eqn:Ec; auto.
           unfold comb in Ec. rewrite gR in Ec. destruct (get L (dv_block dr)) as [[? ?]|]; discriminate.
      * rewrite (proj2 (Z.eqb_neq (dv_block dr) b)) by auto. cbn [orb]. reflexivity.
    + split; [exact I1|]. split; [exists rpre; exact I2|]. split; [|exact I4].
      intros e [<-|He]; [exact H|].
      assert (Hsr : sorted ((dr, Jr) :: rt)) by (apply (suffix_sorted rpre); rewrite <- I2; auto).
      pose proof (sorted_hd _ _ Hsr e He). cbn in *. lia.
Qed.

Lemma merge_loop_spec : forall lts lpre rt m lo, L = lpre ++ lts -> mInv lo rt m ->
  (forall e, In e lpre -> (blk e <= lo)%Z) -> (forall e, In e lts -> (lo < blk e)%Z) ->
  exists rt' m' lo', merge_loop C lts rt m = Ok (rt', m') /\ mInv lo' rt' m' /\
    (rt' = [] \/ forall e, In e L -> (blk e <= lo')%Z).
Proof.
  induction lts as [|[dl Ml] lts IH]; intros lpre rt m lo HL HI Hpre Hlts; cbn [merge_loop].
  - exists rt, m, lo. split; auto. split; auto. right. rewrite app_nil_r in HL. subst; auto.
  - destruct rt as [|r0 rt0] eqn:Ert.
    + exists [], m, lo. auto.
    + rewrite <- Ert in *. 
      assert (Hlo : (lo < dv_block dl)%Z) by (apply (Hlts (dl, Ml)); left; auto).
      assert (HsS : sorted ((dl, Ml) :: lts)) by (apply (suffix_sorted lpre); rewrite <- HL; auto).
      assert (HLo : forall e, In e L -> (blk e <= lo)%Z \/ (dv_block dl <= blk e)%Z).
      { intros e He. rewrite HL in He. apply in_app_or in He. destruct He as [He|[<-|He]]; auto.
        right; cbn; lia. right. pose proof (sorted_hd _ _ HsS e He). cbn in *; lia. }
      pose proof (ffwd_spec (dv_block dl) rt m lo HI Hlo HLo) as HF.
      destruct (ffwd C (dv_block dl) rt m) as [rt1 m1].
      destruct HF as (F1 & (rpre & F2) & F3 & F4).
      assert (HL' : L = (lpre ++ [(dl, Ml)]) ++ lts) by (rewrite <- app_assoc; auto).
      assert (Hpre' : forall e, In e (lpre ++ [(dl, Ml)]) -> (blk e <= dv_block dl)%Z).
      { intros e He. apply in_app_or in He. destruct He as [He|[<-|[]]]; [|cbn; lia].
        specialize (Hpre e He). lia. }
      assert (Hlts' : forall e, In e lts -> (dv_block dl < blk e)%Z).
      { intros e He. apply (sorted_hd _ _ HsS e He). }
      assert (HinL : In (dl, Ml) L) by (rewrite HL; apply in_or_app; right; left; auto).
      assert (gL : get L (dv_block dl) = Some (dl, Ml)) by (apply (get_sorted_In L (dl, Ml)); auto).
      assert (Hnomatch : has_key rt1 (dv_block dl) = false -> mInv (dv_block dl) rt1 m1).
      { intros Hk. split; auto. split; [exists rpre; auto|]. split; auto.
        intros b. rewrite F4. destruct (has_key rt1 b) eqn:Hb; cbn [andb]; auto.
        apply has_key_true in Hb. destruct Hb as (e & He & Eb).
        pose proof (F3 e He). assert (b <> dv_block dl).
        { intros ->. apply (proj1 (has_key_false _ _) Hk e He). auto. }
        rewrite (proj2 (Z.ltb_lt lo b)), (proj2 (Z.ltb_lt (dv_block dl) b)) by lia. reflexivity. }
      destruct rt1 as [|[dr Jr] rt1].
      * apply (IH (lpre ++ [(dl, Ml)]) [] m1 (dv_block dl) HL'); auto.
      * destruct (Z.eqb_spec (dv_block dr) (dv_block dl)) as [Ek|Nk].
        -- assert (HinR : In (dr, Jr) Rm) by (rewrite F2; apply in_or_app; right; left; auto).
           pose proof (Hids (dl, Ml) (dr, Jr) HinL HinR ltac:(cbn; congruence)) as Hid. cbn in Hid.
           rewrite Hid, Nat.eqb_refl. cbn [negb].
           assert (gm : get m1 (dv_block dl) = Some (dl, Ml)).
           { rewrite F4. cbn [has_key existsb fst]. rewrite (proj2 (Z.eqb_eq _ _) Ek). cbn [orb andb].
             rewrite (proj2 (Z.ltb_lt lo _)) by auto. exact gL. }
           destruct (map_update_add_spec m1 dl (maybe_chain C Jr) Ml dl F1 gm) as (m2 & E2 & S2 & G2 & _).
           { apply (Hdims (dl, Ml) (dr, Jr)); auto. }
           rewrite E2. cbn [bind].
           apply (IH (lpre ++ [(dl, Ml)]) ((dr, Jr) :: rt1) m2 (dv_block dl) HL'); auto.
           split; auto. split; [exists rpre; auto|]. split; auto.
           intros b. rewrite G2, F4.
           assert (gR : get Rm (dv_block dl) = Some (dr, Jr)).
           { rewrite <- Ek. apply (get_sorted_In Rm (dr, Jr)); auto. }
           destruct (Z.eqb_spec b (dv_block dl)).
           ++ subst b. rewrite (proj2 (Z.ltb_ge (dv_block dl) (dv_block dl))) by lia.
              rewrite andb_false_r. unfold comb. rewrite gL, gR. reflexivity.
           ++ destruct (has_key ((dr, Jr) :: rt1) b) eqn:Hb; cbn [andb]; auto.
              apply has_key_true in Hb. destruct Hb as (e & He & Eb). pose proof (F3 e He).
              rewrite (proj2 (Z.ltb_lt lo b)), (proj2 (Z.ltb_lt (dv_block dl) b)) by lia. reflexivity.
        -- apply (IH (lpre ++ [(dl, Ml)]) ((dr, Jr) :: rt1) m1 (dv_block dl) HL'); auto.
           apply Hnomatch. apply has_key_false. intros e [<-|He]; [exact Nk|].
           assert (Hsr : sorted ((dr, Jr) :: rt1)) by (apply (suffix_sorted rpre); rewrite <- F2; auto).
           pose proof (sorted_hd _ _ Hsr e He). pose proof (F3 (dr, Jr) (or_introl eq_refl)). cbn in *. lia.
Qed.

Lemma final_fold : forall rt m lo, mInv lo rt m ->
  (forall e, In e L -> (blk e <= lo)%Z) ->
  let m' := fold_left (fun acc e => map_insert acc (fst e) (maybe_chain C (snd e))) rt m in
  sorted m' /\ forall b, get m' b = comb C L Rm b.
Proof.
  induction rt as [|[dr Jr] rt IH]; intros m lo (I1 & (rpre & I2) & I3 & I4) HL; cbn [fold_left fst snd].
  - split; auto. 
  - assert (HinR : In (dr, Jr) Rm) by (rewrite I2; apply in_or_app; right; left; auto).
    assert (Hsr : sorted ((dr, Jr) :: rt)) by (apply (suffix_sorted rpre); rewrite <- I2; auto).
    assert (Hk : has_key rt (dv_block dr) = false).
    { apply has_key_false. intros e He. pose proof (sorted_hd _ _ Hsr e He). cbn in *. lia. }
    destruct (map_insert_spec m dr (maybe_chain C Jr) I1) as (S & G & I).
    apply (IH _ lo); auto. split; auto. split. { exists (rpre ++ [(dr, Jr)]). rewrite <- app_assoc; auto. }
    split. { intros; apply I3; right; auto. }
    intros b. rewrite G, I4. cbn [has_key existsb fst]. fold (has_key rt b).
    destruct (Z.eqb_spec b (dv_block dr)).
    + subst b. rewrite Z.eqb_refl, Hk. cbn [orb andb].
      assert (gR : get Rm (dv_block dr) = Some (dr, Jr)) by (apply (get_sorted_In Rm (dr, Jr)); auto).
      destruct (Z.ltb_spec lo (dv_block dr)).
      * assert (gL : get L (dv_block dr) = None).
        { apply get_notin. intros e He. specialize (HL e He). lia. }
        rewrite gL. unfold comb. rewrite gL, gR. reflexivity.
      * destruct (comb C L Rm (dv_block dr)) eqn:Ec; auto.
        unfold comb in Ec. rewrite gR in Ec. destruct (get L (dv_block dr)) as [[? ?]|]; discriminate.
    + rewrite (proj2 (Z.eqb_neq (dv_block dr) b)) by auto. reflexivity.
Qed.

Lemma merge_correct : forall rows,
  match C with Some c => d_cols c = rows | None => True end ->
  exists m', sp_merge rows rows C L Rm = Ok m' /\ sorted m' /\ forall b, get m' b = comb C L Rm b.
Proof.
  intros rows HC. unfold sp_merge. rewrite Nat.eqb_refl. cbn [negb].
  assert (HC' : match C with Some c => negb (d_cols c =? rows) | None => false end = false).
  { destruct C; auto. rewrite HC, Nat.eqb_refl. reflexivity. }
  rewrite HC'.
  destruct (merge_loop_spec L [] Rm L (-1)%Z eq_refl) as (rt' & m' & lo' & E & I & HF).
  - split; auto. split; [exists []; auto|]. split. { intros e He. specialize (HposR e He). lia. }
    intros b. destruct (has_key Rm b) eqn:Hb; cbn [andb].
    + apply has_key_true in Hb. destruct Hb as (e & He & Eb). specialize (HposR e He).
      rewrite (proj2 (Z.ltb_lt _ _)) by lia. reflexivity.
    + unfold comb. rewrite (get_notin Rm b) by (apply has_key_false; auto).
      destruct (get L b); auto. destruct p; auto.
  - intros e [].
  - intros e He. specialize (HposL e He). lia.
  - rewrite E. cbn [bind fst snd]. eexists; split; [reflexivity|].
    destruct HF as [->|HF].
    + cbn [fold_left]. destruct I as (I1 & _ & _ & I4). split; auto.
    + apply (final_fold rt' m' lo'); auto.
Qed.
End Merge.

(** ** Hessian assembly *)
Definition bJ (m : jmap) (b : nat) : mat K :=
  match get m (Z.of_nat b) with Some e => d_at (snd e) | None => mzero end.

Definition nonneg (m : jmap) : Prop := forall e, In e m -> (0 <= blk e)%Z.

Lemma corr_blocks_eq : forall rows J1 b1 es H r c i j,
  corr_blocks rows J1 b1 H es r c i j =
  kadd (H r c i j) (if r =? b1 then lsum es (fun e => if Z.to_nat (blk e) =? c
        then mmul rows (mtr (d_at J1)) (d_at (snd e)) i j else k0) else k0).
Proof.
  intros rows J1 b1. induction es as [|[d2 J2] es IH]; intros H r c i j; cbn [corr_blocks lsum fst snd].
  - destruct (r =? b1); ring.
  - rewrite IH. unfold h_add. destruct (Nat.eqb_spec r b1); cbn [andb]; auto.
    rewrite (Nat.eqb_sym c). destruct (Z.to_nat (dv_block d2) =? c); [unfold madd|]; ring.
Qed.

Lemma lsum_get : forall (es : jmap) c (f : dmat -> K), sorted es -> nonneg es ->
  lsum es (fun e => if Z.to_nat (blk e) =? c then f (snd e) else k0) =
  match get es (Z.of_nat c) with Some e => f (snd e) | None => k0 end.
Proof.
  induction es as [|e es IH]; intros c f Hs Hp; [reflexivity|].
  cbn [lsum]. rewrite IH; [|eapply sorted_tl; eauto|intros x Hx; apply Hp; right; auto].
  unfold get; cbn [find]. pose proof (Hp e (or_introl eq_refl)).
  destruct (Nat.eqb_spec (Z.to_nat (blk e)) c).
  - rewrite (proj2 (Z.eqb_eq _ _)) by lia.
    fold (get es (Z.of_nat c)). rewrite (get_notin es).
    ring. intros e' He'. pose proof (sorted_hd _ _ Hs e' He'). lia.
  - rewrite (proj2 (Z.eqb_neq _ _)) by lia. fold (get es (Z.of_nat c)). ring.
Qed.

Fixpoint psum (rows : nat) (es : jmap) (r c i j : nat) : K :=
  match es with
  | [] => k0
  | e1 :: t => kadd (if r =? Z.to_nat (blk e1) then lsum es (fun e => if Z.to_nat (blk e) =? c
        then mmul rows (mtr (d_at (snd e1))) (d_at (snd e)) i j else k0) else k0) (psum rows t r c i j)
  end.

Lemma hess_blocks_H : forall base rows e es H rhs r c i j,
  fst (hess_blocks base rows e H rhs es) r c i j = kadd (H r c i j) (psum rows es r c i j).
Proof.
  intros base rows e. induction es as [|[d1 J1] es IH]; intros H rhs r c i j; cbn [hess_blocks psum].
  - cbn. ring.
  - rewrite IH, corr_blocks_eq. cbn [fst snd]. ring.
Qed.

Lemma mmul_zero_l : forall rows A i j, mmul rows (mtr mzero) A i j = @k0 K R.
Proof. intros. unfold mmul, mtr, mzero. apply ksum_zero; intros; ring. Qed.
Lemma mmul_zero_r : forall rows A i j, mmul rows A mzero i j = @k0 K R.
Proof. intros. unfold mmul, mtr, mzero. apply ksum_zero; intros; ring. Qed.

Lemma psum_eq : forall rows es r c i j, sorted es -> nonneg es ->
  psum rows es r c i j = if r <=? c then mmul rows (mtr (bJ es r)) (bJ es c) i j else k0.
Proof.
  intros rows. induction es as [|e1 es IH]; intros r c i j Hs Hp; cbn [psum].
  - unfold bJ; cbn. destruct (r <=? c); auto. symmetry; apply mmul_zero_l.
  - pose proof (Hp e1 (or_introl eq_refl)) as Hp1.
    assert (Hs' := sorted_tl _ _ Hs). assert (Hp' : nonneg es) by (intros x Hx; apply Hp; right; auto).
    rewrite IH by auto.
    rewrite (lsum_get (e1 :: es) c (fun M => mmul rows (mtr (d_at (snd e1))) (d_at M) i j)) by auto.
    assert (Hget : forall b, Z.of_nat b <> blk e1 -> get (e1 :: es) (Z.of_nat b) = get es (Z.of_nat b)).
    { intros b Hb. unfold get; cbn [find]. rewrite (proj2 (Z.eqb_neq _ _)) by auto. reflexivity. }
    assert (Hget1 : get (e1 :: es) (blk e1) = Some e1).
    { unfold get; cbn [find]. rewrite Z.eqb_refl; reflexivity. }
    assert (Hlo : forall b, (Z.of_nat b <= blk e1)%Z -> get es (Z.of_nat b) = None).
    { intros b Hb. apply get_notin. intros e He. pose proof (sorted_hd _ _ Hs e He). lia. }
    destruct (Nat.eqb_spec r (Z.to_nat (blk e1))) as [Er|Nr].
    + assert (Er' : Z.of_nat r = blk e1) by lia.
      unfold bJ at 1. rewrite (Hlo r) by lia.
      replace (if r <=? c then mmul rows (mtr mzero) (bJ es c) i j else k0) with k0
        by (destruct (r <=? c); auto; symmetry; apply mmul_zero_l).
      unfold bJ. rewrite Er', Hget1.
      destruct (Nat.leb_spec r c).
      * destruct (get (e1 :: es) (Z.of_nat c)); [ring|]. rewrite mmul_zero_r; ring.
      * rewrite Hget by lia. rewrite Hlo by lia. ring.
    + unfold bJ at 1 3. rewrite (Hget r) by lia.
      destruct (Nat.leb_spec r c); [|ring].
      destruct (Z.eq_dec (Z.of_nat c) (blk e1)).
      * rewrite (Hlo r) by lia. rewrite !mmul_zero_l. ring.
      * unfold bJ. rewrite (Hget c) by auto. ring.
Qed.

(** right-hand side *)
Definition vJt (rows : nat) (J : mat K) (e : vec K) : vec K := mvmul rows (mtr J) e.
Lemma hess_blocks_rhs_out : forall base rows e es H rhs p,
  (forall en, In en es -> ~ (base (Z.to_nat (blk en)) <= p < base (Z.to_nat (blk en)) + d_cols (snd en))) ->
  snd (hess_blocks base rows e H rhs es) p = rhs p.
Proof.
  intros base rows e. induction es as [|[d1 J1] es IH]; intros H rhs p Hno; cbn [hess_blocks]; [reflexivity|].
  rewrite IH by (intros; apply Hno; right; auto).
  specialize (Hno (d1, J1) (or_introl eq_refl)). cbn [fst snd] in Hno. unfold seg_sub.
  destruct ((base (Z.to_nat (dv_block d1)) <=? p) && (p <? base (Z.to_nat (dv_block d1)) + d_cols J1)) eqn:E; auto.
  rewrite andb_true_iff, Nat.leb_le, Nat.ltb_lt in E. lia.
Qed.

Lemma hess_blocks_rhs : forall base dim rows e es H rhs b k,
  sorted es -> nonneg es ->
  (forall en, In en es -> d_cols (snd en) = dim (Z.to_nat (blk en))) ->
  (forall b1 b2, b1 <> b2 -> dim b1 <> 0 -> dim b2 <> 0 -> base b1 + dim b1 <= base b2 \/ base b2 + dim b2 <= base b1) ->
  k < dim b ->
  snd (hess_blocks base rows e H rhs es) (base b + k) = ksub (rhs (base b + k)) (mvmul rows (mtr (bJ es b)) e k).
Proof.
  intros base dim rows e. induction es as [|[d1 J1] es IH]; intros H rhs b k Hs Hp Hdim Hdis Hk; cbn [hess_blocks].
  - unfold bJ; cbn. unfold mvmul, mtr, mzero. rewrite ksum_zero; [ring|intros; ring].
  - pose proof (Hp (d1, J1) (or_introl eq_refl)) as Hp1. cbn [fst] in Hp1.
    pose proof (Hdim (d1, J1) (or_introl eq_refl)) as Hd1. cbn [fst snd] in Hd1.
    destruct (Nat.eq_dec b (Z.to_nat (dv_block d1))) as [Eb|Nb].
    + rewrite hess_blocks_rhs_out.
      * unfold seg_sub. rewrite <- Eb, Hd1, <- Eb.
        rewrite (proj2 (Nat.leb_le _ _)), (proj2 (Nat.ltb_lt _ _)) by lia. cbn [andb].
        replace (base b + k - base b) with k by lia.
        unfold bJ. replace (Z.of_nat b) with (dv_block d1) by lia.
        unfold get; cbn [find fst]. rewrite Z.eqb_refl. cbn [snd]. reflexivity.
      * intros en Hen Hr. pose proof (sorted_hd _ _ Hs en Hen). cbn [fst] in H0.
        pose proof (Hdim en (or_intror Hen)).
        destruct (Nat.eq_dec (dim (Z.to_nat (blk en))) 0); [lia|].
        destruct (Hdis b (Z.to_nat (blk en))); lia.
    + rewrite IH; auto; [|eapply sorted_tl; eauto|intros x Hx; apply Hp; right; auto|intros; apply Hdim; right; auto].
      unfold seg_sub. rewrite Hd1.
      destruct ((base (Z.to_nat (dv_block d1)) <=? base b + k) && (base b + k <? base (Z.to_nat (dv_block d1)) + dim (Z.to_nat (dv_block d1)))) eqn:E.
      { rewrite andb_true_iff, Nat.leb_le, Nat.ltb_lt in E. destruct (Hdis b _ Nb); lia. }
      unfold bJ. unfold get; cbn [find fst]. rewrite (proj2 (Z.eqb_neq _ _)) by lia. reflexivity.
Qed.

(** the scaled copy of the map *)
Definition scaled (rows scols : nat) (S : mat K) (m : jmap) : jmap :=
  map (fun en => (fst en, mkD scols (d_cols (snd en))
          (mscale (dv_scaling (fst en)) (mmul rows (mtr S) (d_at (snd en)))))) m.
Lemma scaled_sorted : forall rows scols S m, sorted m -> sorted (scaled rows scols S m).
Proof.
  intros rows scols S. induction m as [|e m IH]; intros Hs; [constructor|].
  inversion Hs as [|? ? Hs' Hall]; subst. cbn. constructor; [apply IH; auto|].
  apply Forall_forall. intros e' He'. apply in_map_iff in He'. destruct He' as (x & <- & Hx).
  apply (sorted_hd _ _ Hs x Hx).
Qed.
Lemma scaled_get : forall rows scols S m b, get (scaled rows scols S m) b =
  option_map (fun en => (fst en, mkD scols (d_cols (snd en))
          (mscale (dv_scaling (fst en)) (mmul rows (mtr S) (d_at (snd en)))))) (get m b).
Proof.
  intros rows scols S. induction m as [|e m IH]; intros b; [reflexivity|].
  unfold get in *; cbn [scaled map find fst]. destruct (blk e =? b)%Z; [reflexivity|]. apply IH.
Qed.

(** J1^T W J2 as an explicit double sum *)
Definition quad (n : nat) (A W B : mat K) (i j : nat) : K :=
  ksum n (fun p => ksum n (fun q => kmul (kmul (A p i) (W p q)) (B q j))).
Definition Wmat (n : nat) (w : K) (S : mat K) : mat K := mscale w (mmul n S (mtr S)).

Lemma quad_scaled : forall n sw S A B i j,
  mmul n (mtr (mmul n (mtr (mscale sw S)) A)) (mmul n (mtr (mscale sw S)) B) i j
  = quad n A (Wmat n (kmul sw sw) S) B i j.
Proof.
  intros. unfold quad, Wmat, mmul, mtr, mscale.
  transitivity (ksum n (fun k => ksum n (fun p => ksum n (fun q =>
     kmul (kmul (A p i) (kmul (kmul sw sw) (kmul (S p k) (S q k)))) (B q j))))).
  - apply ksum_ext; intros k Hk. rewrite <- ksum_mul_r. apply ksum_ext; intros p Hp.
    rewrite <- ksum_mul_l. apply ksum_ext; intros q Hq. ring.
  - rewrite ksum_swap. apply ksum_ext; intros p Hp. rewrite ksum_swap. apply ksum_ext; intros q Hq.
    rewrite ksum_mul_r, ksum_mul_l, ksum_mul_l. reflexivity.
Qed.

Lemma rhs_scaled : forall n sw S A e k,
  mvmul n (mtr (mmul n (mtr (mscale sw S)) A)) (mvmul n (mtr (mscale sw S)) e) k
  = ksum n (fun p => ksum n (fun q => kmul (kmul (A p k) (Wmat n (kmul sw sw) S p q)) (e q))).
Proof.
  intros. pose proof (quad_scaled n sw S A (fun i _ => e i) k 0) as H.
  unfold quad in H. rewrite <- H. unfold mvmul, mmul, mtr, mscale. reflexivity.
Qed.

Definition wf_term (sc : nat -> K) (dim : nat -> nat) (t : @term K) : Prop :=
  sorted (t_jac t) /\ nonneg (t_jac t) /\
  (forall en, In en (t_jac t) -> dv_scaling (fst en) = sc (Z.to_nat (blk en)) /\
                                 d_cols (snd en) = dim (Z.to_nat (blk en))).

Lemma bJ_scaled : forall sc dim t b i j, wf_term sc dim t ->
  bJ (scaled (t_rows t) (t_rows t) (mscale (t_sw t) (t_S t)) (t_jac t)) b i j =
  kmul (sc b) (mmul (t_rows t) (mtr (mscale (t_sw t) (t_S t))) (bJ (t_jac t) b) i j).
Proof.
  intros sc dim t b i j (W1 & W2 & W3). unfold bJ. rewrite scaled_get.
  destruct (get (t_jac t) (Z.of_nat b)) as [e|] eqn:E; cbn [option_map].
  - cbn [snd d_at]. unfold mscale at 1. apply get_In in E. destruct E as [E1 E2].
    destruct (W3 e E1) as [-> _]. rewrite E2, Nat2Z.id. reflexivity.
  - rewrite mmul_zero_r. unfold mzero. ring.
Qed.

Lemma buildHessian_spec : forall base sc dim t H rhs,
  wf_term sc dim t ->
  (forall b1 b2, b1 <> b2 -> dim b1 <> 0 -> dim b2 <> 0 -> base b1 + dim b1 <= base b2 \/ base b2 + dim b2 <= base b1) ->
  let Hr := buildHessian base t (H, rhs) in
  (forall b1 b2 i j, b1 <= b2 -> fst Hr b1 b2 i j = kadd (H b1 b2 i j)
     (kmul (kmul (sc b1) (sc b2)) (quad (t_rows t) (bJ (t_jac t) b1)
        (Wmat (t_rows t) (kmul (t_sw t) (t_sw t)) (t_S t)) (bJ (t_jac t) b2) i j))) /\
  (forall b1 b2 i j, b2 < b1 -> fst Hr b1 b2 i j = H b1 b2 i j) /\
  (forall b k, k < dim b -> snd Hr (base b + k) = ksub (rhs (base b + k))
     (kmul (sc b) (ksum (t_rows t) (fun p => ksum (t_rows t) (fun q =>
        kmul (kmul (bJ (t_jac t) b p k) (Wmat (t_rows t) (kmul (t_sw t) (t_sw t)) (t_S t) p q)) (t_e t q)))))).
Proof.
  intros base sc dim t H rhs Wt Hdis Hr. pose proof Wt as (W1 & W2 & W3).
  set (es := scaled (t_rows t) (t_rows t) (mscale (t_sw t) (t_S t)) (t_jac t)).
  assert (Es : sorted es) by (apply scaled_sorted; auto).
  assert (Ep : nonneg es).
  { intros e He. apply in_map_iff in He. destruct He as (x & <- & Hx). apply (W2 x Hx). }
  assert (EHr : Hr = hess_blocks base (t_rows t) (mvmul (t_rows t) (mtr (mscale (t_sw t) (t_S t))) (t_e t)) H rhs es) by reflexivity.
  split; [|split].
  - intros b1 b2 i j Hle. rewrite EHr, hess_blocks_H, psum_eq by auto.
    rewrite (proj2 (Nat.leb_le _ _)) by auto. f_equal.
    rewrite <- quad_scaled.
    match goal with |- mmul ?n ?A ?B i j = kmul ?s (mmul ?n ?C ?D i j) =>
      change (ksum n (fun k => kmul (A i k) (B k j)) = kmul s (ksum n (fun k => kmul (C i k) (D k j)))) end.
    rewrite <- ksum_mul_l.
    apply ksum_ext; intros k Hk. unfold mtr at 1 2. unfold es. rewrite !(bJ_scaled sc dim t) by auto. unfold mtr. ring.
  - intros b1 b2 i j Hlt. rewrite EHr, hess_blocks_H, psum_eq by auto.
    destruct (Nat.leb_spec b1 b2); [lia|]. ring.
  - intros b k Hk. rewrite EHr, (hess_blocks_rhs base dim); auto.
    + f_equal. rewrite <- rhs_scaled.
    match goal with |- mvmul ?n ?A ?B k = kmul ?s (mvmul ?n ?C ?D k) =>
      change (ksum n (fun p => kmul (A k p) (B p)) = kmul s (ksum n (fun p => kmul (C k p) (D p)))) end.
      rewrite <- ksum_mul_l. apply ksum_ext; intros p Hp.
      unfold mtr at 1. unfold es. rewrite (bJ_scaled sc dim t) by auto. unfold mtr at 3. ring.
    + intros en Hen. apply in_map_iff in Hen. destruct Hen as (x & <- & Hx). cbn [fst snd d_cols].
      apply (W3 x Hx).
Qed.

Lemma buildAll_spec : forall base sc dim ts H rhs,
  (forall t, In t ts -> wf_term sc dim t) ->
  (forall b1 b2, b1 <> b2 -> dim b1 <> 0 -> dim b2 <> 0 -> base b1 + dim b1 <= base b2 \/ base b2 + dim b2 <= base b1) ->
  let Hr := buildAll base ts (H, rhs) in
  (forall b1 b2 i j, b1 <= b2 -> fst Hr b1 b2 i j = kadd (H b1 b2 i j)
     (lsum ts (fun t => kmul (kmul (sc b1) (sc b2)) (quad (t_rows t) (bJ (t_jac t) b1)
        (Wmat (t_rows t) (kmul (t_sw t) (t_sw t)) (t_S t)) (bJ (t_jac t) b2) i j)))) /\
  (forall b1 b2 i j, b2 < b1 -> fst Hr b1 b2 i j = H b1 b2 i j) /\
  (forall b k, k < dim b -> snd Hr (base b + k) = ksub (rhs (base b + k))
     (lsum ts (fun t => kmul (sc b) (ksum (t_rows t) (fun p => ksum (t_rows t) (fun q =>
        kmul (kmul (bJ (t_jac t) b p k) (Wmat (t_rows t) (kmul (t_sw t) (t_sw t)) (t_S t) p q)) (t_e t q))))))).
Proof.
  intros base sc dim ts. induction ts as [|t ts IH]; intros H rhs Wt Hdis Hr.
  - subst Hr; cbn. repeat split; intros; ring.
  - unfold buildAll in Hr; cbn [fold_left] in Hr. fold (buildAll base ts) in Hr.
    destruct (buildHessian base t (H, rhs)) as [H1 rhs1] eqn:E1.
    pose proof (buildHessian_spec base sc dim t H rhs (Wt t (or_introl eq_refl)) Hdis) as S1.
    cbv zeta in S1. rewrite E1 in S1. cbn [fst snd] in S1. destruct S1 as (A1 & A2 & A3).
    pose proof (IH H1 rhs1 (fun t' Ht' => Wt t' (or_intror Ht')) Hdis) as S2. cbv zeta in S2.
    change (buildAll base ts (H1, rhs1)) with Hr in S2. destruct S2 as (B1 & B2 & B3).
    cbn [lsum]. split; [|split].
    + intros. rewrite B1, A1 by auto. ring.
    + intros. rewrite B2, A2 by auto. ring.
    + intros. rewrite B3, A3 by auto. ring.
Qed.
End Proofs.
