(** * Derivatives of geometric expressions: the induction (proofs only) *)
From Coq Require Import Arith Lia List ZArith NArith Bool Reals Lra.
From Verif Require Import Lib_Ring Lib_Real Lib_Res MatrixStack_Model MatrixStack_Spec DesignVar_Base Jacobian_Model Jacobian_Spec Expr_Base Scalar_Model Scalar_Spec Scalar_Calc Scalar_Proofs Geo_Model Geo_Spec Geo_Algebra Geo_Proofs Geo_Tangent.
Import ListNotations.
Local Open Scope R_scope.

Scheme sx_mut := Induction for sx Sort Prop with vx_mut := Induction for vx Sort Prop with sl_mut := Induction for sl Sort Prop with rx_mut := Induction for rx Sort Prop with tx_mut := Induction for tx Sort Prop with hx_mut := Induction for hx Sort Prop.
Combined Scheme geo_ind from sx_mut, vx_mut, sl_mut, rx_mut, tx_mut, hx_mut.

Lemma u_ok : forall o x, udom o x -> exists f v, ufac o x = Ok f /\ uval o x = Ok v /\ rder (uval o) x f.
Proof.
  intros o x H. assert (G : exists f, ufac o x = Ok f /\ rder (uval o) x f).
  { destruct o; cbn [udom ufac uval] in *.
    - eexists. split; [reflexivity|apply rd_neg].
    - eexists. split; [rewrite fsqrt_ok by lra; cbn [bind]; apply fdiv_ok; pose proof (sqrt_lt_R0 _ H); lra|apply rd_sqrt; auto].
    - eexists. split; [apply fdiv_ok; lra|apply rd_ln; auto].
    - eexists. split; [reflexivity|apply rd_exp].
    - eexists. split; [apply fdiv_ok, one_x2|apply rd_atan].
    - eexists. split; [reflexivity|apply rd_tanh].
    - pose proof (acos_root _ H). pose proof (sqrt_lt_R0 _ H0). eexists. split; [destruct (Rle_dec x 1); [|exfalso; lra]; rewrite fsqrt_ok by lra; cbn [bind]; apply fdiv_ok; lra|apply rd_acos; auto].
    - destruct H as (H & H'). pose proof (acos_root _ H). pose proof (sqrt_lt_R0 _ H0). eexists. split; [destruct Rlt_dec; [exfalso; lra|]; rewrite fsqrt_ok by lra; cbn [bind]; apply fdiv_ok; lra|apply rd_acosSq; auto].
    - pose proof (cosh_pos (1/2 * scale * (shift - x))). eexists. split; [rewrite fdiv_ok by lra; cbn [bind]; reflexivity|apply rd_sigmoid; auto].
    - destruct (rd_pow k x H) as (t & Et & Rt). exists (IZR k * t). split; auto. rewrite Et. auto.
    - eexists. split; [reflexivity|apply rd_sin].
    - eexists. split; [reflexivity|apply rd_cos]. }
  destruct G as (f & E & D). destruct (rder_val _ _ _ D) as (v & Ev). exists f, v. auto.
Qed.
Lemma b_ok : forall o x y, bdom o x y -> exists f1 f2 v, bfac o x y = Ok (f1, f2) /\ bval o x y = Ok v /\
  forall g1 g2 l1 l2, g1 0 = x -> g2 0 = y -> derivable_pt_lim g1 0 l1 -> derivable_pt_lim g2 0 l2 -> rder (fun h => bval o (g1 h) (g2 h)) 0 (f1 * l1 + f2 * l2).
Proof.
  assert (T : forall g l, derivable_pt_lim g 0 l -> rder (fun h => Ok (g h)) 0 l) by (intros; apply rder_total; auto).
  intros o x y H. destruct o; cbn [bdom bfac bval] in *.
  - do 3 eexists. split; [reflexivity|]. split; [reflexivity|]. intros g1 g2 l1 l2 E1 E2 D1 D2. apply (rd_mul (fun h => Ok (g1 h)) (fun h => Ok (g2 h)) 0 l1 l2 x y); auto; f_equal; auto.
  - do 3 eexists. split; [rewrite fdiv_ok by auto; reflexivity|]. split; [apply fdiv_ok; auto|]. intros g1 g2 l1 l2 E1 E2 D1 D2. apply (rd_div (fun h => Ok (g1 h)) (fun h => Ok (g2 h)) 0 l1 l2 x y); auto; f_equal; auto.
  - assert (N : x * x + y * y <> 0). { destruct H as [H|H]; [pose proof (Rsqr_pos_lt _ H); unfold Rsqr in *; nra|nra]. }
    do 3 eexists. split; [rewrite fdiv_ok by auto; reflexivity|]. split; [reflexivity|]. intros g1 g2 l1 l2 E1 E2 D1 D2. apply (rd_atan2 (fun h => Ok (g1 h)) (fun h => Ok (g2 h)) 0 l1 l2 x y); auto; f_equal; auto.
Qed.
Lemma rder_tan : forall f l l', rder f 0 l -> l' 0%nat = l -> exists g', near (fun h => f h = Ok (g' h)) /\ tanS g' l'.
Proof. intros f l l' (g & de & Hd & H & D) E. exists g. split; [exists de; split; auto; intros h Hh; apply H; rewrite Rminus_0_r; auto|]. unfold tanS. rewrite E. auto. Qed.
Lemma total_tan : forall V (tan : (R -> V) -> vec R -> Prop) (g : R -> V) l, tan g l -> exists g', near (fun h => Ok (g h) = Ok (g' h)) /\ tan g' l.
Proof. intros. exists g. split; auto. apply near_all. auto. Qed.
Lemma inl : forall A (l1 l2 : list A) x, In x l1 -> In x (l1 ++ l2).
Proof. intros. apply in_or_app. auto. Qed.
Lemma inr : forall A (l1 l2 : list A) x, In x l2 -> In x (l1 ++ l2).
Proof. intros. apply in_or_app. auto. Qed.

Section Main.
  Variables (X : kinematics) (par_dom : mat R -> Prop) (kinds : nat -> kind) (s : state) (w : nat).
  Hypothesis KO : kinematics_ok X par_dom.
  Hypothesis SO : state_ok kinds s.
  Hypothesis W6 : (6 <= w)%nat.
  Notation good := (good X kinds s w).
  Notation gp := (gp X kinds s).
  Definition Gs (e : sx) := exists v ops D, good tanS 1 (sxdepth e) (sxdvs e) (sxval X e) (sxjac X e s) v ops D.
  Definition Gv (e : vx) := (exists v ops D, good (tanV (vxsize e)) (vxsize e) (vxdepth e) (vxdvs e) (vxval X e) (vxjac X e s) v ops D) /\ (vxsize e <= w)%nat.
  Definition Gr (e : rx) := exists v ops D, good tanR 3 (rxdepth e) (rxdvs e) (rxval X e) (rxjac X e s) v ops D.
  Definition Gt (e : tx) := exists v ops D, good tanT 6 (txdepth e) (txdvs e) (txval X e) (txjac X e s) v ops D.
  Definition Gh (e : hx) := exists v ops D, good (tanV 4) 4 (hxdepth e) (hxdvs e) (hxval X e) (hxjac X e s) v ops D.
  Definition Gl (l : sl) := exists v (D : dmatrix), slval X l s = Ok v /\ (forall d r j, (sllen l <= r)%nat -> D d r j = 0) /\
    (forall d j, dv_ok kinds d -> (j < dv_dim d)%nat -> exists g, curve (fun h => slval X l (gp d j h)) g /\ tanV (sllen l) g (fun i => D d i j)) /\
    forall n i, (i + sllen l <= n)%nat -> exists ops, sljac X n i l s = Ok ops /\ (forall x, In x (ops_dvs ops) -> In x (sldvs l)) /\
      contributes n w (S (sldepth l)) ops (fun d r j => if (r <? i)%nat then 0 else D d (r - i)%nat j).

  Ltac bindrw := repeat (match goal with
    | H : sxval X ?a s = Ok _ |- context [sxval X ?a s] => rewrite H
    | H : sxjac X ?a s = Ok _ |- context [sxjac X ?a s] => rewrite H
    | H : vxval X ?a s = Ok _ |- context [vxval X ?a s] => rewrite H
    | H : vxjac X ?a s = Ok _ |- context [vxjac X ?a s] => rewrite H
    | H : rxval X ?a s = Ok _ |- context [rxval X ?a s] => rewrite H
    | H : rxjac X ?a s = Ok _ |- context [rxjac X ?a s] => rewrite H
    | H : txval X ?a s = Ok _ |- context [txval X ?a s] => rewrite H
    | H : txjac X ?a s = Ok _ |- context [txjac X ?a s] => rewrite H
    | H : hxval X ?a s = Ok _ |- context [hxval X ?a s] => rewrite H
    | H : hxjac X ?a s = Ok _ |- context [hxjac X ?a s] => rewrite H
    | H : ufac _ _ = Ok _ |- _ => rewrite H
    | H : bfac _ _ _ = Ok _ |- _ => rewrite H end; cbn [bind]); try reflexivity.
  Ltac val1 := let s0 := fresh "s0" in let x := fresh "x" in let E := fresh "E" in intros s0 x E; cbn [sxval vxval rxval txval hxval]; rewrite E; reflexivity.
  Ltac val2 := let s0 := fresh "s0" in let x := fresh "x" in let y := fresh "y" in let E1 := fresh "E" in let E2 := fresh "E" in intros s0 x y E1 E2; cbn [sxval vxval rxval txval hxval]; rewrite E1; cbn [bind]; rewrite E2; reflexivity.
  Ltac jac := cbn [sxjac vxjac rxjac txjac hxjac]; bindrw.
  Ltac dep := cbn [sxdepth vxdepth rxdepth txdepth hxdepth]; lia.
  Ltac inc := cbn [sxdvs vxdvs rxdvs txdvs hxdvs]; auto using inl, inr.

  (* a leaf: [CAddId d0] or [CAdd d0 J] *)
  Lemma good_leaf : forall V (tan : (R -> V) -> vec R -> Prop) m dvs val jac v d0 o J,
    val s = Ok v -> jac = Ok [o] -> (o = CAddId d0 /\ dv_dim d0 = m /\ J = delta \/ o = CAdd d0 (mkD m (dv_dim d0) J)) -> In d0 dvs ->
    (forall d j, dv_ok kinds d -> (j < dv_dim d)%nat -> exists g, curve (fun h => val (gp d j h)) g /\ tan g (fun i => if (dv_id d0 =? dv_id d)%nat then J i j else 0)) ->
    good tan m 0 dvs val jac v [o] (fun d i j => if (dv_id d0 =? dv_id d)%nat then J i j else 0).
  Proof.
    intros V tan m dvs val jac v d0 o J E Ej Ho Hi HT. split; auto. split; auto. split; [|split; auto].
    - destruct Ho as [(-> & <- & ->)| ->]; [apply conV|apply (@con_add R RRing m w 0 d0 J)].
    - destruct Ho as [(-> & _)| ->]; cbn; intros x [<-|[]]; auto.
  Qed.
  Lemma gp_other : forall d j h id, id <> dv_id d -> gp d j h id = s id.
  Proof. intros. unfold Geo_Proofs.gp, gperturb. destruct (Nat.eqb_spec id (dv_id d)); [contradiction|auto]. Qed.
  Lemma gp_same : forall d j h, gp d j h (dv_id d) = update_value X (kinds (dv_id d)) (s (dv_id d)) j h.
  Proof. intros. unfold Geo_Proofs.gp, gperturb. rewrite Nat.eqb_refl. auto. Qed.

  (* KVec leaves *)
  Lemma vec_leaf : forall (d0 d : dvr) j i, kinds (dv_id d0) = KVec -> derivable_pt_lim (fun h => gp d j h (dv_id d0) i) 0 (if (dv_id d0 =? dv_id d)%nat then delta i j else 0).
  Proof.
    intros d0 d j i K. destruct (Nat.eqb_spec (dv_id d0) (dv_id d)) as [E|E].
    - apply (der_ext (fun h => update_value X (kinds (dv_id d0)) (s (dv_id d0)) j h i)); [intros; rewrite E, gp_same; auto|]. rewrite K. cbn [update_value]. unfold delta. destruct (Nat.eqb_spec i j); [|apply der_const].
      apply (der_eq _ _ (0 + 1)); [cbn; ring|]. apply der_plus; [apply der_const|apply der_id].
    - apply (der_ext (fun _ => s (dv_id d0) i)); [intros; rewrite gp_other; auto|apply der_const].
  Qed.

  Lemma main :
    (forall e, sxwf kinds e -> sxdom X par_dom e s -> (sxwidth e <= w)%nat -> Gs e) /\
    (forall e, vxwf kinds e -> vxdom X par_dom e s -> (vxwidth e <= w)%nat -> Gv e) /\
    (forall e, slwf kinds e -> sldom X par_dom e s -> (slwidth e <= w)%nat -> Gl e) /\
    (forall e, rxwf kinds e -> rxdom X par_dom e s -> (rxwidth e <= w)%nat -> Gr e) /\
    (forall e, txwf kinds e -> txdom X par_dom e s -> (txwidth e <= w)%nat -> Gt e) /\
    (forall e, hxwf kinds e -> hxdom X par_dom e s -> (hxwidth e <= w)%nat -> Gh e).
  Proof.
    apply geo_ind.
    - (* XVar *) intros d (K & Hd) _ _. do 3 eexists. eapply (good_leaf _ tanS 1 (sxdvs (XVar d)) _ _ _ d (CAddId d) delta); [reflexivity|reflexivity|auto|left; reflexivity|].
      intros d' j _ _. exists (fun h => gp d' j h (dv_id d) 0%nat). split; [apply near_all; intros; reflexivity|]. apply vec_leaf; auto.
    - (* XConst *) intros c _ _ _. do 3 eexists. apply good_const; [reflexivity|reflexivity|]. apply der_const.
    - (* XUn *) intros o a IH Wa (Da & N) Hw. destruct IH as (x & oa & D & G); auto. assert (G' := G). destruct G' as (E & J & _). destruct (u_ok o x (N x E)) as (f & v & Ef & Ev & Df).
      do 3 eexists. eapply (good_1 X par_dom kinds s w KO R R tanS tanS 1 1 _ _ _ _ _ _ _ _ x oa D (uval o) v (scope (CApplyS f) oa) (fun i k => f * delta i k)); [exact G|apply step_S; lia|val1|exact Ev|jac|dep|inc|].
      intros g l E0 T. apply (rder_tan _ (f * l 0%nat)); [|rewrite ks1; cbn; ring]. apply (rder_comp (fun h => Ok (g h)) (uval o) 0 (l 0%nat) x f); auto; [apply rder_total; exact T|f_equal; auto].
    - (* XBin *) intros o a IHa b IHb (Wa & Wb) (Da & Db & N) Hw. cbn [sxwidth] in Hw. destruct IHa as (x & oa & D1 & G1); auto; [lia|]. destruct IHb as (y & ob & D2 & G2); auto; [lia|].
      assert (G1' := G1). destruct G1' as (E1 & J1 & _). assert (G2' := G2). destruct G2' as (E2 & J2 & _). destruct (b_ok o x y (N x y E1 E2)) as (f1 & f2 & v & Ef & Ev & Df).
      do 3 eexists. eapply (good_2 X par_dom kinds s w KO R R R tanS tanS tanS 1 1 1 _ _ _ _ _ _ _ _ _ _ _ _ x y oa ob D1 D2 (bval o) v (scope (CApplyS f1) oa) (scope (CApplyS f2) ob) (fun i k => f1 * delta i k) (fun i k => f2 * delta i k));
        [exact G1|exact G2|apply step_S; lia|apply step_S; lia|val2|exact Ev|jac|dep|inc|inc|].
      intros g1 g2 l1 l2 Z1 Z2 T1 T2. apply (rder_tan _ (f1 * l1 0%nat + f2 * l2 0%nat)); [|rewrite !ks1; cbn; ring]. apply Df; auto.
    - (* XAdd *) intros a IHa b IHb m (Wa & Wb) (Da & Db) Hw. cbn [sxwidth] in Hw. destruct IHa as (x & oa & D1 & G1); auto; [lia|]. destruct IHb as (y & ob & D2 & G2); auto; [lia|].
      assert (G1' := G1). destruct G1' as (E1 & J1 & _). assert (G2' := G2). destruct G2' as (E2 & J2 & _).
      do 3 eexists. eapply (good_2 X par_dom kinds s w KO R R R tanS tanS tanS 1 1 1 _ _ _ _ _ _ _ _ _ _ _ _ x y oa ob D1 D2 (fun x y => Ok (x + m * y)) (x + m * y) oa (scope (CApplyS m) ob) mid (fun i k => m * delta i k));
        [exact G1|exact G2|apply step_id|apply step_S; lia|val2|reflexivity|jac|dep|inc|inc|].
      intros g1 g2 l1 l2 Z1 Z2 T1 T2. apply (total_tan _ tanS (fun h => g1 h + m * g2 h)). unfold tanS. apply (der_eq _ _ (l1 0%nat + m * l2 0%nat)); [rewrite !ks1; cbn; ring|]. apply der_plus; [exact T1|apply der_scal; exact T2].
    - (* XComp *) intros v IHv i (Wv & Hi) Dv Hw. destruct IHv as ((x & ov & D & G) & Sw); auto. assert (G' := G). destruct G' as (E & J & _).
      do 3 eexists. eapply (good_1 X par_dom kinds s w KO R (vec R) tanS (tanV (vxsize v)) 1 (vxsize v) _ _ _ _ _ _ _ _ x ov D (fun x => Ok (x i)) (x i) (scope (CApply (unit_row (vxsize v) i)) ov) (fun _ k => delta i k)); [exact G|apply step_M; lia|val1|reflexivity|jac|dep|inc|].
      intros g l E0 T. apply (total_tan _ tanS (fun h => g h i)). apply (tV_comp (vxsize v)); auto.
    - (* VxVar *) intros d K _ Hw. cbn [vxwidth] in Hw. split; [|cbn [vxsize]; lia]. do 3 eexists. cbn [vxsize]. eapply (good_leaf _ (tanV (dv_dim d)) (dv_dim d) (vxdvs (VxVar d)) _ _ _ d (CAddId d) delta); [reflexivity|reflexivity|auto|left; reflexivity|].
      intros d' j _ _. exists (fun h => gp d' j h (dv_id d)). split; [apply near_all; intros; reflexivity|]. intros i _. apply vec_leaf; auto.
    - (* VxConst *) intros n v _ _ Hw. cbn [vxwidth] in Hw. split; [|cbn [vxsize]; lia]. do 3 eexists. apply good_const; [reflexivity|reflexivity|]. intros i Hi. apply der_const.
    - (* VxStack *) intros l IHl Wl Dl Hw. cbn [vxwidth] in Hw. destruct IHl as (v & D & E & Z & T & J); auto; [lia|]. destruct (J (sllen l) 0%nat) as (ops & Ej & I1 & C); [lia|]. split; [|cbn [vxsize]; lia].
      exists v, ops, D. split; [exact E|]. split; [exact Ej|]. cbn [vxsize vxdepth vxdvs]. split; [|split; auto]. eapply con_ext; [|exact C]. intros d r j _. cbn beta. replace (r - 0)%nat with r by lia. auto.
    - (* VxAdd *) intros a IHa b IHb (Wa & Wb & Sz) (Da & Db) Hw. cbn [vxwidth] in Hw. destruct IHa as ((x & oa & D1 & G1) & S1); auto; [lia|]. destruct IHb as ((y & ob & D2 & G2) & S2); auto; [lia|]. rewrite <- Sz in G2.
      assert (G1' := G1). destruct G1' as (E1 & J1 & _). assert (G2' := G2). destruct G2' as (E2 & J2 & _). split; [|exact S1].
      do 3 eexists. eapply (good_2 X par_dom kinds s w KO _ _ _ (tanV (vxsize a)) _ _ (vxsize a) (vxsize a) (vxsize a) _ _ _ _ _ _ _ _ _ _ _ _ x y oa ob D1 D2 (fun x y => Ok (fun i => x i + y i)) _ oa ob mid mid);
        [exact G1|exact G2|apply step_id|apply step_id|val2|reflexivity|jac|dep|inc|inc|].
      intros g1 g2 l1 l2 Z1 Z2 T1 T2. apply (total_tan _ (tanV (vxsize a)) (fun h i => g1 h i + g2 h i)). apply tV_add; auto.
    - (* VxScale *) intros p IHp e IHe (Wp & We) (Dp & De) Hw. cbn [vxwidth] in Hw. destruct IHp as ((x & oa & D1 & G1) & S1); auto; [lia|]. destruct IHe as (y & ob & D2 & G2); auto; [lia|].
      assert (G1' := G1). destruct G1' as (E1 & J1 & _). assert (G2' := G2). destruct G2' as (E2 & J2 & _). split; [|exact S1].
      do 3 eexists. eapply (good_2 X par_dom kinds s w KO _ _ _ (tanV (vxsize p)) _ _ (vxsize p) (vxsize p) 1 _ _ _ _ _ _ _ _ _ _ _ _ x y oa ob D1 D2 (fun x y => Ok (fun i => x i * y)) _ (scope (CApplyS y) oa) (scope (CApply (mkD (vxsize p) 1 (fun r _ => x r))) ob) (fun i k => y * delta i k) (fun r _ => x r));
        [exact G1|exact G2|apply step_S; auto|apply step_M; lia|val2|reflexivity|jac|dep|inc|inc|].
      intros g1 g2 l1 l2 Z1 Z2 T1 T2. apply (total_tan _ (tanV (vxsize p)) (fun h i => g1 h i * g2 h)). rewrite <- Z1, <- Z2. apply tV_scale; auto.
    - (* ExDir *) intros d mag (K & Hd) _ Hw. split; [|cbn [vxsize]; lia]. do 3 eexists. cbn [vxsize].
      eapply (good_leaf _ (tanV 3) 3 (vxdvs (ExDir d mag)) _ _ _ d _ (fun i j => match j with O => - m3 (s (dv_id d)) i 0%nat * mag | _ => m3 (s (dv_id d)) i 1%nat * mag end)); [reflexivity|cbn [vxjac]; reflexivity|right; rewrite Hd; reflexivity|left; reflexivity|].
      intros d' j Kd Hj. exists (fun h i => mag * m3 (gp d' j h (dv_id d)) i 2%nat). split; [apply near_all; intros; reflexivity|]. intros i Hi. destruct (Nat.eqb_spec (dv_id d) (dv_id d')) as [E|E].
      + unfold dv_ok in Kd. rewrite <- E, K in Kd. destruct KO as (_ & _ & _ & _ & _ & _ & Y0 & Y1 & _).
        apply (der_ext (fun h => mag * ksum 3 (fun k => m3 (s (dv_id d)) i k * ypr X j h 2%nat k))).
        { intros h. f_equal. rewrite E, gp_same, <- E, K. cbn [update_value]. unfold m3 at 2. destruct (Nat.ltb_spec (3 * i + 2) 9); [|lia].
          replace ((3 * i + 2) / 3)%nat with i by (apply (Nat.div_unique _ 3 i 2); lia). replace ((3 * i + 2) mod 3)%nat with 2%nat by (apply (Nat.mod_unique _ 3 i 2); lia). reflexivity. }
        assert (Hj2 : j = 0%nat \/ j = 1%nat) by lia. destruct Hj2 as [->| ->].
        * eapply der_eq; [|apply der_scal; apply (der_ksum 3 (fun k h => m3 (s (dv_id d)) i k * ypr X 0 h 2%nat k) (fun k => m3 (s (dv_id d)) i k * - delta k 0%nat)); intros k Hk; apply der_scal; apply Y0; auto]. rewrite ks3. cbn. ring.
        * eapply der_eq; [|apply der_scal; apply (der_ksum 3 (fun k h => m3 (s (dv_id d)) i k * ypr X 1 h 2%nat k) (fun k => m3 (s (dv_id d)) i k * delta k 1%nat)); intros k Hk; apply der_scal; apply Y1; auto]. rewrite ks3. cbn. ring.
      + apply (der_ext (fun _ => mag * m3 (s (dv_id d)) i 2%nat)); [intros; rewrite gp_other; auto|apply der_const].
    - (* ExRot *) intros nd r IHr p IHp (Wr & Wp & Sp) (Dr & Dp) Hw. cbn [vxwidth] in Hw. destruct IHr as (C & oa & D1 & G1); auto; [lia|]. destruct IHp as ((x & ob & D2 & G2) & S2); auto; [lia|]. rewrite Sp in G2.
      assert (G1' := G1). destruct G1' as (E1 & J1 & _). assert (G2' := G2). destruct G2' as (E2 & J2 & _). split; [|cbn [vxsize]; lia]. cbn [vxsize].
      do 3 eexists. eapply (good_2 X par_dom kinds s w KO _ _ _ (tanV 3) _ _ 3 3 3 _ _ _ _ _ _ _ _ _ _ _ _ C x oa ob D1 D2 (fun C x => Ok (mvmul 3 C x)) _ (scope (CApply (mkD 3 3 (crossm (mvmul 3 C x)))) oa) (scope (CApply (mkD 3 3 C)) ob) (crossm (mvmul 3 C x)) C);
        [exact G1|exact G2|apply step_M; lia|apply step_M; lia|val2|reflexivity|jac|dep|inc|inc|].
      intros g1 g2 l1 l2 Z1 Z2 T1 T2. apply (total_tan _ (tanV 3) (fun h => mvmul 3 (g1 h) (g2 h))). rewrite <- Z1, <- Z2. apply tV_rot; auto.
    - (* ExMat *) intros nd d B p IHp (K & Wp & Sp) Dp Hw. destruct IHp as ((x & ob & D2 & G2) & S2); auto. rewrite Sp in G2. assert (G2' := G2). destruct G2' as (E2 & J2 & C2 & I2 & P2). split; [|cbn [vxsize]; lia]. cbn [vxsize].
      set (A := m3 (s (dv_id d))). set (o1 := if (dv_dim d =? 0)%nat then [] else [CAdd d (mkD 3 (dv_dim d) (mmul 9 (mat_jac x) B))]).
      exists (mvmul 3 A x), (o1 ++ scope (CApply (mkD 3 3 A)) ob), (fun d' i j => (if (dv_id d =? dv_id d')%nat && negb (dv_dim d =? 0)%nat then mmul 9 (mat_jac x) B i j else 0) + mmul 3 A (D2 d') i j).
      split; [cbn [vxval]; rewrite E2; reflexivity|]. split; [cbn [vxjac]; rewrite E2; cbn [bind]; rewrite J2; reflexivity|]. split; [|split].
      + apply (conA 3 w _ _ _ (fun d' i j => if (dv_id d =? dv_id d')%nat && negb (dv_dim d =? 0)%nat then mmul 9 (mat_jac x) B i j else 0) (fun d' => mmul 3 A (D2 d'))).
        * subst o1. destruct (dv_dim d =? 0)%nat; cbn [negb].
          -- eapply con_ext; [|apply con0]. intros d' i j _. rewrite andb_false_r. auto.
          -- eapply con_ext; [|apply (@con_add R RRing 3 w _ d (mmul 9 (mat_jac x) B))]. intros d' i j _. cbn beta. rewrite andb_true_r. auto.
        * cbn [vxdepth]. apply conM; auto. lia.
      + intros y Hy. rewrite ops_app, ops_scopeM in Hy. apply in_app_or in Hy. cbn [vxdvs]. apply in_or_app. destruct Hy as [Hy|Hy]; auto. left. subst o1. destruct (dv_dim d =? 0)%nat; auto.
      + intros d' j Kd Hj. destruct (P2 d' j Kd Hj) as (g2 & C & T). exists (fun h => mvmul 3 (m3 (gp d' j h (dv_id d))) (g2 h)). split.
        { eapply near_mono; [|exact C]. intros h H. cbn beta in *. cbn [vxval]. rewrite H. reflexivity. }
        assert (Z2 := curve_at0 X par_dom kinds s KO _ _ _ _ _ _ C E2). intros i Hi.
        assert (DA : forall k, (k < 3)%nat -> derivable_pt_lim (fun h => m3 (gp d' j h (dv_id d)) i k) 0 (if (dv_id d =? dv_id d')%nat then B (k * 3 + i)%nat j else 0)).
        { intros k Hk. destruct (Nat.eqb_spec (dv_id d) (dv_id d')) as [E|E].
          - apply (der_ext (fun h => m3 (s (dv_id d)) i k + h * B (k * 3 + i)%nat j)).
            + intros h. rewrite E, gp_same, <- E, K. cbn [update_value]. unfold m3 at 2. destruct (Nat.ltb_spec (3 * i + k) 9); [|lia].
              replace ((3 * i + k) / 3)%nat with i by (apply (Nat.div_unique _ 3 i k); lia). replace ((3 * i + k) mod 3)%nat with k by (apply (Nat.mod_unique _ 3 i k); lia). reflexivity.
            + apply (der_eq _ _ (0 + 1 * B (k * 3 + i)%nat j)); [ring|]. apply der_plus; [apply der_const|]. apply der_scal_r. apply der_id.
          - apply (der_ext (fun _ => m3 (s (dv_id d)) i k)); [intros; rewrite gp_other; auto|apply der_const]. }
        eapply der_eq; [|apply (der_mv 3 (fun h => m3 (gp d' j h (dv_id d))) g2 _ (fun k => D2 d' k j) i DA); intros; apply T; auto]. cbn beta. rewrite Z2, (gp0 X par_dom kinds s KO). fold A.
        destruct (Nat.eqb_spec (dv_id d) (dv_id d')) as [E|E]; cbn [andb].
        * unfold dv_ok in Kd. rewrite <- E, K in Kd. destruct (Nat.eqb_spec (dv_dim d) 0) as [Z|Z]; [lia|]. cbn [negb]. unfold mmul. rewrite ks9, !ks3. unfold mat_jac. idx i; cbn [Nat.div Nat.modulo Nat.divmod Nat.sub fst snd Nat.mul Nat.add]; ex; ring.
        * unfold mmul. rewrite !ks3. cbn [kmul RRing]. ring.
    - (* ExCross *) intros a IHa b IHb (Wa & Wb & Sa & Sb) (Da & Db) Hw. cbn [vxwidth] in Hw. destruct IHa as ((x & oa & D1 & G1) & S1); auto; [lia|]. destruct IHb as ((y & ob & D2 & G2) & S2); auto; [lia|]. rewrite Sa in G1. rewrite Sb in G2.
      assert (G1' := G1). destruct G1' as (E1 & J1 & _). assert (G2' := G2). destruct G2' as (E2 & J2 & _). split; [|cbn [vxsize]; lia]. cbn [vxsize].
      do 3 eexists. eapply (good_2 X par_dom kinds s w KO _ _ _ (tanV 3) _ _ 3 3 3 _ _ _ _ _ _ _ _ _ _ _ _ x y oa ob D1 D2 (fun x y => Ok (mvmul 3 (crossm x) y)) _ _ _ (fun i j => - crossm y i j) (crossm x));
        [exact G1|exact G2|apply step_M; lia|apply step_M; lia|val2|reflexivity|jac|dep|inc|inc|].
      intros g1 g2 l1 l2 Z1 Z2 T1 T2. apply (total_tan _ (tanV 3) (fun h => mvmul 3 (crossm (g1 h)) (g2 h))). rewrite <- Z1, <- Z2. apply tV_cross; auto.
    - (* ExSub *) intros a IHa b IHb (Wa & Wb & Sa & Sb) (Da & Db) Hw. cbn [vxwidth] in Hw. destruct IHa as ((x & oa & D1 & G1) & S1); auto; [lia|]. destruct IHb as ((y & ob & D2 & G2) & S2); auto; [lia|]. rewrite Sa in G1. rewrite Sb in G2.
      assert (G1' := G1). destruct G1' as (E1 & J1 & _). assert (G2' := G2). destruct G2' as (E2 & J2 & _). split; [|cbn [vxsize]; lia]. cbn [vxsize].
      do 3 eexists. eapply (good_2 X par_dom kinds s w KO _ _ _ (tanV 3) _ _ 3 3 3 _ _ _ _ _ _ _ _ _ _ _ _ x y oa ob D1 D2 (fun x y => Ok (fun i => x i - y i)) _ oa (scope (CApplyS (-1)) ob) mid (fun i k => -1 * delta i k));
        [exact G1|exact G2|apply step_id|apply step_S; lia|val2|reflexivity|jac|dep|inc|inc|].
      intros g1 g2 l1 l2 Z1 Z2 T1 T2. apply (total_tan _ (tanV 3) (fun h i => g1 h i - g2 h i)). apply tV_sub; auto.
    - (* ExSubC *) intros a IHa c (Wa & Sa) Da Hw. cbn [vxwidth] in Hw. destruct IHa as ((x & oa & D & G) & S1); auto. rewrite Sa in G. assert (G' := G). destruct G' as (E & J & _). split; [|cbn [vxsize]; lia]. cbn [vxsize].
      do 3 eexists. eapply (good_1 X par_dom kinds s w KO _ _ (tanV 3) (tanV 3) 3 3 _ _ _ _ _ _ _ _ x oa D (fun x => Ok (fun i => x i - c i)) _ oa mid); [exact G|apply step_id|val1|reflexivity|jac|dep|inc|].
      intros g l E0 T. apply (total_tan _ (tanV 3) (fun h i => g h i - c i)). apply tV_subc; auto.
    - (* ExNeg *) intros a IHa (Wa & Sa) Da Hw. cbn [vxwidth] in Hw. destruct IHa as ((x & oa & D & G) & S1); auto. rewrite Sa in G. assert (G' := G). destruct G' as (E & J & _). split; [|cbn [vxsize]; lia]. cbn [vxsize].
      do 3 eexists. eapply (good_1 X par_dom kinds s w KO _ _ (tanV 3) (tanV 3) 3 3 _ _ _ _ _ _ _ _ x oa D (fun x => Ok (fun i => - x i)) _ (scope (CApplyS (-1)) oa) (fun i k => -1 * delta i k)); [exact G|apply step_S; lia|val1|reflexivity|jac|dep|inc|].
      intros g l E0 T. apply (total_tan _ (tanV 3) (fun h i => - g h i)). apply tV_neg; auto.
    - (* ExTrans *) intros t IHt Wt Dt Hw. destruct IHt as (T & oa & D & G); auto. assert (G' := G). destruct G' as (E & J & _). split; [|cbn [vxsize]; lia]. cbn [vxsize].
      do 3 eexists. eapply (good_1 X par_dom kinds s w KO _ _ (tanV 3) tanT 3 6 _ _ _ _ _ _ _ _ T oa D (fun T => Ok (trans_part T)) _ _ (fun i j => if (j <? 3)%nat then delta i j else crossm (trans_part T) i (j - 3)%nat)); [exact G|apply step_M; lia|val1|reflexivity|jac|dep|inc|].
      intros g l E0 TT. apply (total_tan _ (tanV 3) (fun h => trans_part (g h))). rewrite <- E0. apply tV_trans; auto.
    - (* ExPar *) intros r IHr Wr (Dr & N) Hw. destruct IHr as (C & oa & D & G); auto. assert (G' := G). destruct G' as (E & J & _). split; [|cbn [vxsize]; lia]. cbn [vxsize].
      do 3 eexists. eapply (good_1 X par_dom kinds s w KO _ _ (tanV 3) tanR 3 3 _ _ _ _ _ _ _ _ C oa D (fun C => Ok (rot_params X C)) _ _ (rot_params_jac X C)); [exact G|apply step_M; lia|val1|reflexivity|jac|dep|inc|].
      intros g l E0 (N1 & V1). apply (total_tan _ (tanV 3) (fun h => rot_params X (g h))). rewrite <- E0. intros i Hi. destruct KO as (_ & _ & _ & _ & _ & _ & _ & _ & KP & _). apply KP; auto. rewrite E0. apply N. auto.
    - (* ExHom *) intros h IHh Wh (Dh & N) Hw. destruct IHh as (x & oa & D & G); auto. assert (G' := G). destruct G' as (E & J & _). split; [|cbn [vxsize]; lia]. cbn [vxsize]. specialize (N x E).
      assert (EJ : exists Jm, fromHomJ x = Ok Jm) by (unfold fromHomJ; destruct Req_EM_T; [contradiction|eauto]). destruct EJ as (Jm & EJ).
      assert (EF : exists y, fromHom x = Ok y) by (unfold fromHom; destruct Req_EM_T; [contradiction|eauto]). destruct EF as (y & EF).
      do 3 eexists. eapply (good_1 X par_dom kinds s w KO _ _ (tanV 3) (tanV 4) 3 4 _ _ _ _ _ _ _ _ x oa D fromHom y _ Jm); [exact G|apply step_M; lia|val1|exact EF|cbn [vxjac]; rewrite E; cbn [bind]; rewrite EJ; jac|dep|inc|].
      intros g l E0 T. apply tV_hom; auto. rewrite E0. auto.
    - (* ExElem *) intros a IHa b IHb (Wa & Wb & Sa & Sb) (Da & Db) Hw. cbn [vxwidth] in Hw. destruct IHa as ((x & oa & D1 & G1) & S1); auto; [lia|]. destruct IHb as ((y & ob & D2 & G2) & S2); auto; [lia|]. rewrite Sa in G1. rewrite Sb in G2.
      assert (G1' := G1). destruct G1' as (E1 & J1 & _). assert (G2' := G2). destruct G2' as (E2 & J2 & _). split; [|cbn [vxsize]; lia]. cbn [vxsize].
      do 3 eexists. eapply (good_2 X par_dom kinds s w KO _ _ _ (tanV 3) _ _ 3 3 3 _ _ _ _ _ _ _ _ _ _ _ _ x y oa ob D1 D2 (fun x y => Ok (fun i => x i * y i)) _ _ _ (fun i j => y i * delta i j) (fun i j => x i * delta i j));
        [exact G1|exact G2|apply step_M; lia|apply step_M; lia|val2|reflexivity|jac|dep|inc|inc|].
      intros g1 g2 l1 l2 Z1 Z2 T1 T2. apply (total_tan _ (tanV 3) (fun h i => g1 h i * g2 h i)). rewrite <- Z1, <- Z2. apply tV_elem; auto.
    - (* XNil *) intros _ _ _. exists (fun _ => 0), (fun _ _ _ => 0). split; [reflexivity|]. split; auto. split.
      + intros d j _ _. exists (fun _ _ => 0). split; [apply near_all; intros; reflexivity|]. intros i Hi. apply der_const.
      + intros n i _. exists []. split; [reflexivity|]. split; [auto|]. eapply con_ext; [|apply con0]. intros d r j _. destruct (_ <? _)%nat; auto.
    - (* XCons *) intros a IHa l IHl (Wa & Wl) (Da & Dl) Hw. cbn [slwidth] in Hw. destruct IHa as (v1 & o1 & D1 & (Ev & Ej & C & I1 & P)); auto; [lia|]. destruct IHl as (v2 & D2 & (Ev2 & Z & P2 & J)); auto; [lia|].
      exists (fun i => match i with O => v1 | S i' => v2 i' end), (fun d i j => match i with O => D1 d 0%nat j | S i' => D2 d i' j end). split; [cbn [slval]; rewrite Ev; cbn [bind]; rewrite Ev2; auto|]. cbn [sllen]. split; [|split].
      + intros d [|r] j Hr; [lia|]. apply Z. lia.
      + intros d j Kd Hj. destruct (P d j Kd Hj) as (g1 & C1 & T1). destruct (P2 d j Kd Hj) as (g2 & C2 & T2). exists (fun h i => match i with O => g1 h | S i' => g2 h i' end). split.
        * eapply near_mono; [|apply (near_and _ _ C1 C2)]. intros h (H1 & H2). cbn beta in *. cbn [slval]. rewrite H1. cbn [bind]. rewrite H2. reflexivity.
        * intros [|i] Hi; [exact T1|apply T2; lia].
      + intros n i Hn. destruct (J n (S i)) as (ops & Ejl & I2 & C2); [lia|]. exists (scope (CApply (unit_col n i)) o1 ++ ops). split; [cbn [sljac]; rewrite Ej; cbn [bind]; rewrite Ejl; auto|].
        split; [rewrite ops_app, ops_scopeM; cbn [sldvs]; apply in_app_l; auto|]. cbn [sldepth].
        eapply con_ext; [|apply (conA n w _ _ _ (fun d => mmul 1 (fun r _ => delta r i) (D1 d))); [eapply con_w; [|apply (conM n 1 w (sxdepth a) o1 D1 (fun r _ => delta r i)); [lia|exact C]]; lia|eapply con_w; [|exact C2]; lia]].
        intros d r j Hr. cbn beta. replace (mmul 1 (fun r0 _ : nat => delta r0 i) (D1 d) r j) with (delta r i * D1 d 0%nat j) by (cbn; ring).
        destruct (Nat.ltb_spec r i); [destruct (Nat.ltb_spec r (S i)); [|lia]; rewrite delta_neq by lia; cbn; ring|].
        destruct (Nat.ltb_spec r (S i)).
        * replace r with i by lia. rewrite delta_refl, Nat.sub_diag. cbn. ring.
        * rewrite delta_neq by lia. replace (r - i)%nat with (S (r - S i)) by lia. cbn. ring.
    - (* RxVar *) intros d (K & Hd) _ _. do 3 eexists. eapply (good_leaf _ tanR 3 (rxdvs (RxVar d)) _ _ _ d (CAddId d) delta); [reflexivity|reflexivity|auto|left; reflexivity|].
      intros d' j Kd Hj. exists (fun h => m3 (gp d' j h (dv_id d))). split; [apply near_all; intros; reflexivity|]. split; [apply near_all; intros h; apply (gp_ok X par_dom kinds s KO SO); auto|].
      destruct (Nat.eqb_spec (dv_id d) (dv_id d')) as [E|E].
      + unfold dv_ok in Kd. rewrite <- E, K in Kd. destruct KO as (_ & V & _). apply (vel_near (fun h => m3 (rot_update X (s (dv_id d)) j h))); [apply near_all; intros h p q _ _; rewrite E, gp_same, <- E, K; reflexivity|].
        eapply vel_ext; [|apply V; lia]. intros k Hk. apply delta_sym.
      + intros p q Hp Hq. apply (der_ext (fun _ => m3 (s (dv_id d)) p q)); [intros; rewrite gp_other; auto|]. eapply der_eq; [|apply der_const]. idx p; exr.
    - (* RxConst *) intros C RC _ _. do 3 eexists. apply good_const; [reflexivity|reflexivity|]. split; [apply near_all; auto|]. intros i j Hi Hj. eapply der_eq; [|apply der_const]. idx i; exr.
    - (* RxMul *) intros nd a IHa b IHb (Wa & Wb) (Da & Db) Hw. cbn [rxwidth] in Hw. destruct IHa as (A & oa & D1 & G1); auto; [lia|]. destruct IHb as (B & ob & D2 & G2); auto; [lia|].
      assert (G1' := G1). destruct G1' as (E1 & J1 & _). assert (G2' := G2). destruct G2' as (E2 & J2 & _).
      do 3 eexists. eapply (good_2 X par_dom kinds s w KO _ _ _ tanR _ _ 3 3 3 _ _ _ _ _ _ _ _ _ _ _ _ B A ob oa D2 D1 (fun B A => Ok (mmul 3 A B)) _ (scope (CApply (mkD 3 3 A)) ob) oa A mid);
        [exact G2|exact G1|apply step_M; lia|apply step_id| |reflexivity|jac|dep|inc|inc|].
      { intros s0 x y Ex Ey. cbn [rxval]. rewrite Ey. cbn [bind]. rewrite Ex. reflexivity. }
      intros g2 g1 l2 l1 Z2 Z1 T2 T1. apply (total_tan _ tanR (fun h => mmul 3 (g1 h) (g2 h))). rewrite <- Z1. apply tR_mul; auto.
    - (* RxInv *) intros nd a IHa Wa Da Hw. destruct IHa as (A & oa & D & G); auto. assert (G' := G). destruct G' as (E & J & _).
      do 3 eexists. eapply (good_1 X par_dom kinds s w KO _ _ tanR tanR 3 3 _ _ _ _ _ _ _ _ A oa D (fun A => Ok (mtr A)) _ _ (fun i j => - mtr A i j)); [exact G|apply step_M; lia|val1|reflexivity|jac|dep|inc|].
      intros g l E0 T. apply (total_tan _ tanR (fun h => mtr (g h))). rewrite <- E0. apply tR_inv; auto.
    - (* RxOfT *) intros t IHt Wt Dt Hw. destruct IHt as (T & oa & D & G); auto. assert (G' := G). destruct G' as (E & J & _).
      do 3 eexists. eapply (good_1 X par_dom kinds s w KO _ _ tanR tanT 3 6 _ _ _ _ _ _ _ _ T oa D (fun T => Ok (rot_part T)) _ _ (fun i j => if (j <? 3)%nat then 0 else delta i (j - 3)%nat)); [exact G|apply step_M; lia|val1|reflexivity|jac|dep|inc|].
      intros g l E0 TT. apply (total_tan _ tanR g). apply tR_ofT; auto.
    - (* RxAxis *) intros axis e IHe (Ha & We) De Hw. destruct IHe as (x & oa & D & G); auto. assert (G' := G). destruct G' as (E & J & _).
      do 3 eexists. eapply (good_1 X par_dom kinds s w KO _ _ tanR tanS 3 1 _ _ _ _ _ _ _ _ x oa D (fun x => Ok (axis_rot axis x)) _ _ (fun i _ => - delta i axis)); [exact G|apply step_M; lia|val1|reflexivity|jac|dep|inc|].
      intros g l E0 T. apply (total_tan _ tanR (fun h => axis_rot axis (g h))). apply tR_axis; auto.
    - (* TxRT *) intros r IHr p IHp (Wr & Wp & Sp) (Dr & Dp) Hw. cbn [txwidth] in Hw. destruct IHr as (C & oa & D1 & G1); auto; [lia|]. destruct IHp as ((x & ob & D2 & G2) & S2); auto; [lia|]. rewrite Sp in G2.
      assert (G1' := G1). destruct G1' as (E1 & J1 & _). assert (G2' := G2). destruct G2' as (E2 & J2 & _).
      do 3 eexists. eapply (good_2 X par_dom kinds s w KO _ _ _ tanT _ _ 6 3 3 _ _ _ _ _ _ _ _ _ _ _ _ C x oa ob D1 D2 (fun C x => Ok (mk_T C x)) _ _ _ (fun i j => if (i <? 3)%nat then - crossm x i j else delta (i - 3)%nat j) (fun i j => if (i <? 3)%nat then delta i j else 0));
        [exact G1|exact G2|apply step_M; lia|apply step_M; lia|val2|reflexivity|jac|dep|inc|inc|].
      intros g1 g2 l1 l2 Z1 Z2 T1 T2. apply (total_tan _ tanT (fun h => mk_T (g1 h) (g2 h))). rewrite <- Z2. apply tT_RT; auto.
    - (* TxR *) intros r IHr Wr Dr Hw. destruct IHr as (C & oa & D & G); auto. assert (G' := G). destruct G' as (E & J & _).
      do 3 eexists. eapply (good_1 X par_dom kinds s w KO _ _ tanT tanR 6 3 _ _ _ _ _ _ _ _ C oa D (fun C => Ok (mk_T C (fun _ => 0))) _ _ (fun i j => if (i <? 3)%nat then 0 else delta (i - 3)%nat j)); [exact G|apply step_M; lia|val1|reflexivity|jac|dep|inc|].
      intros g l E0 T. apply (total_tan _ tanT (fun h => mk_T (g h) (fun _ => 0))). apply tT_R; auto.
    - (* TxT *) intros p IHp (Wp & Sp) Dp Hw. destruct IHp as ((x & oa & D & G) & S2); auto. rewrite Sp in G. assert (G' := G). destruct G' as (E & J & _).
      do 3 eexists. eapply (good_1 X par_dom kinds s w KO _ _ tanT (tanV 3) 6 3 _ _ _ _ _ _ _ _ x oa D (fun x => Ok (mk_T mid x)) _ _ (fun i j => if (i <? 3)%nat then delta i j else 0)); [exact G|apply step_M; lia|val1|reflexivity|jac|dep|inc|].
      intros g l E0 T. apply (total_tan _ tanT (fun h => mk_T mid (g h))). apply tT_T; auto.
    - (* TxMul *) intros nd a IHa b IHb (Wa & Wb) (Da & Db) Hw. cbn [txwidth] in Hw. destruct IHa as (A & oa & D1 & G1); auto; [lia|]. destruct IHb as (B & ob & D2 & G2); auto; [lia|].
      assert (G1' := G1). destruct G1' as (E1 & J1 & _). assert (G2' := G2). destruct G2' as (E2 & J2 & _).
      do 3 eexists. eapply (good_2 X par_dom kinds s w KO _ _ _ tanT _ _ 6 6 6 _ _ _ _ _ _ _ _ _ _ _ _ B A ob oa D2 D1 (fun B A => Ok (mmul 4 A B)) _ (scope (CApply (mkD 6 6 (boxTimes A))) ob) oa (boxTimes A) mid);
        [exact G2|exact G1|apply step_M; lia|apply step_id| |reflexivity|jac|dep|inc|inc|].
      { intros s0 x y Ex Ey. cbn [txval]. rewrite Ey. cbn [bind]. rewrite Ex. reflexivity. }
      intros g2 g1 l2 l1 Z2 Z1 T2 T1. apply (total_tan _ tanT (fun h => mmul 4 (g1 h) (g2 h))). rewrite <- Z1. apply tT_mul; auto.
    - (* TxInv *) intros nd a IHa Wa Da Hw. destruct IHa as (A & oa & D & G); auto. assert (G' := G). destruct G' as (E & J & _).
      do 3 eexists. eapply (good_1 X par_dom kinds s w KO _ _ tanT tanT 6 6 _ _ _ _ _ _ _ _ A oa D (fun A => Ok (inv4 X A)) _ _ (fun i j => - boxTimes (inv4 X A) i j)); [exact G|apply step_M; lia|val1|reflexivity|jac|dep|inc|].
      intros g l E0 T. apply (total_tan _ tanT (fun h => inv4 X (g h))). rewrite <- E0. apply (tT_inv X par_dom); auto.
    - (* TxConst *) intros T RT _ _. do 3 eexists. apply good_const; [reflexivity|reflexivity|]. split; [apply near_all; auto|]. split.
      + intros i j Hi Hj. eapply der_eq; [|apply der_const]. idx i; exr.
      + intros i Hi. eapply der_eq; [|apply der_const]. idx i; exr.
    - (* HxPoint *) intros d (K & Hd) _ _. do 3 eexists. eapply (good_leaf _ (tanV 4) 4 (hxdvs (HxPoint d)) _ _ _ d _ (hom_jac X (s (dv_id d)))); [reflexivity|cbn [hxjac]; reflexivity|right; rewrite Hd; reflexivity|left; reflexivity|].
      intros d' j Kd Hj. exists (fun h => gp d' j h (dv_id d)). split; [apply near_all; intros; reflexivity|]. intros i Hi. destruct (Nat.eqb_spec (dv_id d) (dv_id d')) as [E|E].
      + unfold dv_ok in Kd. rewrite <- E, K in Kd. destruct KO as (_ & _ & _ & _ & H & _). apply (der_ext (fun h => hom_update X (s (dv_id d)) j h i)); [intros h; rewrite E, gp_same, <- E, K; reflexivity|]. apply H; lia.
      + apply (der_ext (fun _ => s (dv_id d) i)); [intros; rewrite gp_other; auto|apply der_const].
    - (* HxConst *) intros p _ _ _. do 3 eexists. apply good_const; [reflexivity|reflexivity|]. intros i Hi. apply der_const.
    - (* HxOfE *) intros p IHp (Wp & Sp) Dp Hw. destruct IHp as ((x & oa & D & G) & S2); auto. rewrite Sp in G. assert (G' := G). destruct G' as (E & J & _).
      do 3 eexists. eapply (good_1 X par_dom kinds s w KO _ _ (tanV 4) (tanV 3) 4 3 _ _ _ _ _ _ _ _ x oa D (fun x => Ok (fun i => if (i <? 3)%nat then x i else 1)) _ _ (fun i j => delta i j)); [exact G|apply step_M; lia|val1|reflexivity|jac|dep|inc|].
      intros g l E0 T. apply (total_tan _ (tanV 4) (fun h i => if (i <? 3)%nat then g h i else 1)). apply tH_ofE; auto.
    - (* HxMul *) intros nd t IHt h IHh (Wt & Wh) (Dt & Dh) Hw. cbn [hxwidth] in Hw. destruct IHt as (T & oa & D1 & G1); auto; [lia|]. destruct IHh as (x & ob & D2 & G2); auto; [lia|].
      assert (G1' := G1). destruct G1' as (E1 & J1 & _). assert (G2' := G2). destruct G2' as (E2 & J2 & _).
      do 3 eexists. eapply (good_2 X par_dom kinds s w KO _ _ _ (tanV 4) _ _ 4 6 4 _ _ _ _ _ _ _ _ _ _ _ _ T x oa ob D1 D2 (fun T x => Ok (mvmul 4 T x)) _ (scope (CApply (mkD 4 6 (boxMinus (mvmul 4 T x)))) oa) (scope (CApply (mkD 4 4 T)) ob) (boxMinus (mvmul 4 T x)) T);
        [exact G1|exact G2|apply step_M; lia|apply step_M; lia|val2|reflexivity|jac|dep|inc|inc|].
      intros g1 g2 l1 l2 Z1 Z2 T1 T2. apply (total_tan _ (tanV 4) (fun h => mvmul 4 (g1 h) (g2 h))). rewrite <- Z1, <- Z2. apply tH_mul; auto.
  Qed.
End Main.
