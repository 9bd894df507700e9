(** * Jacobians of scalar expressions (proofs only) *)
From Coq Require Import Arith Lia List ZArith NArith Bool Reals Lra.
From Verif Require Import Lib_Ring Lib_Real Lib_Res MatrixStack_Model MatrixStack_Spec DesignVar_Base Jacobian_Model Jacobian_Spec Expr_Base Scalar_Model Scalar_Spec Scalar_Calc.
Import ListNotations.
Local Open Scope R_scope.

Scheme sexpr_mut := Induction for sexpr Sort Prop with vexpr_mut := Induction for vexpr Sort Prop with slist_mut := Induction for slist Sort Prop.
Combined Scheme expr_ind from sexpr_mut, vexpr_mut, slist_mut.

Definition dmatrix := dvr -> mat R.
Lemma pert0 : forall s d j id i, perturb s d j 0 id i = s id i.
Proof. intros. unfold perturb. destruct (_ && _); auto. ring. Qed.

Lemma in_app_l : forall A (l1 l2 m1 m2 : list A), (forall x, In x l1 -> In x m1) -> (forall x, In x l2 -> In x m2) -> forall x, In x (l1 ++ l2) -> In x (m1 ++ m2).
Proof. intros. apply in_or_app. apply in_app_or in H1. destruct H1; auto. Qed.
Lemma ops_app : forall (o1 o2 : list (@cop R)), ops_dvs (o1 ++ o2) = ops_dvs o1 ++ ops_dvs o2.
Proof. intros. unfold ops_dvs. apply flat_map_app. Qed.
Lemma ops_scopeS : forall a ops, ops_dvs (scope (CApplyS a) ops) = ops_dvs ops.
Proof. intros. unfold scope. change (ops_dvs (ops ++ [CEnd]) = ops_dvs ops). rewrite ops_app. cbn. apply app_nil_r. Qed.
Lemma ops_scopeM : forall a ops, ops_dvs (scope (CApply a) ops) = ops_dvs ops.
Proof. intros. unfold scope. change (ops_dvs (ops ++ [CEnd]) = ops_dvs ops). rewrite ops_app. cbn. apply app_nil_r. Qed.

Lemma conS : forall m w depth ops (D : dmatrix) a, (m <= w)%nat -> contributes m w depth ops D -> contributes m w (S depth) (scope (CApplyS a) ops) (fun d i j => a * D d i j).
Proof. intros m w depth ops D a H C. exact (@con_scal R RRing m w depth ops D a H C). Qed.
Lemma conM : forall m c w depth ops (D : dmatrix) M, (c <= w)%nat -> contributes c w depth ops D -> contributes m w (S depth) (scope (CApply (mkD m c M)) ops) (fun d => mmul c M (D d)).
Proof. intros m c w depth ops D M H C. exact (@con_mat R RRing m c w depth ops D M H C). Qed.
Lemma conA : forall m w depth o1 o2 (D1 D2 : dmatrix), contributes m w depth o1 D1 -> contributes m w depth o2 D2 -> contributes m w depth (o1 ++ o2) (fun d i j => D1 d i j + D2 d i j).
Proof. intros m w depth o1 o2 D1 D2 C1 C2. exact (@con_app R RRing m w depth o1 o2 D1 D2 C1 C2). Qed.
Lemma conV : forall w depth d0, contributes (dv_dim d0) w depth [CAddId d0] (fun d i j => if (dv_id d0 =? dv_id d)%nat then delta i j else 0).
Proof. intros w depth d0. exact (@con_addid R RRing (dv_dim d0) w depth d0 eq_refl). Qed.
Lemma con0 : forall m w depth, contributes m w depth [] (fun _ _ _ => 0).
Proof. intros. exact (@con_nil R RRing m w depth). Qed.
(* vector values *)
Definition vder (n : nat) (f : R -> res (vec R)) (l : vec R) : Prop :=
  exists g delta, 0 < delta /\ (forall y, Rabs y < delta -> f y = Ok (g y)) /\ forall i, (i < n)%nat -> derivable_pt_lim (fun h => g h i) 0 (l i).

Section S.
  Variables (s : state) (w : nat).
  Definition sgood (e : sexpr) (D : dmatrix) (v : R) (ops : list (@cop R)) : Prop :=
    sval e s = Ok v /\ sjac e s = Ok ops /\ contributes 1 w (sdepth e) ops D /\ (forall x, In x (ops_dvs ops) -> In x (sdvs e)) /\
    forall d j, partial (sval e) s d j (D d 0%nat j) /\ sval e (perturb s d j 0) = Ok v.
  Definition vgood (e : vexpr) (D : dmatrix) (v : vec R) (ops : list (@cop R)) : Prop :=
    vval e s = Ok v /\ vjac e s = Ok ops /\ contributes (vsize e) w (vdepth e) ops D /\ (forall x, In x (ops_dvs ops) -> In x (vdvs e)) /\
    forall d j, vder (vsize e) (fun h => vval e (perturb s d j h)) (fun i => D d i j) /\ exists v', vval e (perturb s d j 0) = Ok v' /\ forall i, (i < vsize e)%nat -> v' i = v i.
  Definition lgood (l : slist) (D : dmatrix) (v : vec R) : Prop :=
    lval l s = Ok v /\
    (forall d j, vder (slen l) (fun h => lval l (perturb s d j h)) (fun i => D d i j) /\ exists v', lval l (perturb s d j 0) = Ok v' /\ forall i, (i < slen l)%nat -> v' i = v i) /\
    (forall d r j, (slen l <= r)%nat -> D d r j = 0) /\
    forall n i, (i + slen l <= n)%nat -> exists ops, ljac n i l s = Ok ops /\ (forall x, In x (ops_dvs ops) -> In x (ldvs l)) /\
      contributes n w (S (ldepth l)) ops (fun d r j => if (r <? i)%nat then 0 else D d (r - i)%nat j).

  Lemma con_w : forall m d d' ops (D : dmatrix), (d <= d')%nat -> contributes m w d ops D -> contributes m w d' ops D.
  Proof. intros. eapply con_weaken; [| |exact H0]; auto. Qed.
  Lemma val_at0 : forall (f : state -> res R) d j l v, partial f s d j l -> f (perturb s d j 0) = Ok v -> exists v, f (perturb s d j 0) = Ok v.
  Proof. eauto. Qed.

  (* one operand *)
  Lemma good_un : forall a e F f D v v' ops, sgood a D v ops -> (1 <= w)%nat ->
    (forall s, sval e s = do x <- sval a s; F x) -> sjac e s = Ok (scope (CApplyS f) ops) -> sdepth e = S (sdepth a) -> sdvs e = sdvs a ->
    F v = Ok v' -> rder F v f -> sgood e (fun d i j => f * D d i j) v' (scope (CApplyS f) ops).
  Proof.
    intros a e F f D v v' ops (Ev & Ej & C & I1 & P) W EF EJ Ed Es Fv RF. split; [rewrite EF, Ev; auto|]. split; auto. split; [rewrite Ed; apply conS; auto|].
    split; [rewrite ops_scopeS, Es; auto|]. intros d j. destruct (P d j) as (P1 & P2). split.
    - unfold partial. apply (rder_ext (fun h => do x <- sval a (perturb s d j h); F x)); [intros; rewrite EF; auto|]. eapply rder_comp; eauto.
    - rewrite EF, P2. auto.
  Qed.
  Lemma good_bin : forall a b e F f1 f2 D1 D2 v1 v2 v o1 o2, sgood a D1 v1 o1 -> sgood b D2 v2 o2 -> (1 <= w)%nat ->
    (forall s, sval e s = do x <- sval a s; do y <- sval b s; F x y) -> sjac e s = Ok (scope (CApplyS f1) o1 ++ scope (CApplyS f2) o2) -> sdepth e = S (Nat.max (sdepth a) (sdepth b)) -> sdvs e = sdvs a ++ sdvs b ->
    F v1 v2 = Ok v ->
    (forall g1 g2 l1 l2, rder g1 0 l1 -> rder g2 0 l2 -> g1 0 = Ok v1 -> g2 0 = Ok v2 -> rder (fun h => do x <- g1 h; do y <- g2 h; F x y) 0 (f1 * l1 + f2 * l2)) ->
    sgood e (fun d i j => f1 * D1 d i j + f2 * D2 d i j) v (scope (CApplyS f1) o1 ++ scope (CApplyS f2) o2).
  Proof.
    intros a b e F f1 f2 D1 D2 v1 v2 v o1 o2 (Ev & Ej & C & I1 & P) (Ev2 & Ej2 & C2 & I2 & P2) W EF EJ Ed Es Fv RF. split; [rewrite EF, Ev; cbn [bind]; rewrite Ev2; auto|]. split; auto. split.
    { rewrite Ed. apply (conA 1 w _ _ _ (fun d i j => f1 * D1 d i j) (fun d i j => f2 * D2 d i j)); (eapply con_w; [|apply conS; [auto|eassumption]]; lia). }
    split; [rewrite ops_app, !ops_scopeS, Es; apply in_app_l; auto|]. intros d j. destruct (P d j) as (P1 & Q1). destruct (P2 d j) as (P2' & Q2). split.
    - unfold partial. apply (rder_ext (fun h => do x <- sval a (perturb s d j h); do y <- sval b (perturb s d j h); F x y)); [intros; rewrite EF; auto|].
      apply (RF (fun h => sval a (perturb s d j h)) (fun h => sval b (perturb s d j h))); auto.
    - rewrite EF, Q1. cbn [bind]. rewrite Q2. auto.
  Qed.

  Lemma fdiv_ok : forall x y, y <> 0 -> fdiv x y = Ok (x / y).
  Proof. intros. unfold fdiv. destruct Req_EM_T; auto. contradiction. Qed.
  Lemma fsqrt_ok : forall x, 0 <= x -> fsqrt x = Ok (sqrt x).
  Proof. intros. unfold fsqrt. destruct Rlt_dec; auto. lra. Qed.
  Lemma one_x2 : forall x, 1 + x * x <> 0.
  Proof. intros. pose proof (Rle_0_sqr x). unfold Rsqr in *. lra. Qed.
  Lemma acos_root : forall x, -1 < x < 1 -> 0 < 1 - x * x.
  Proof. intros. nra. Qed.

  Lemma vder_comp : forall n f l i, vder n f l -> (i < n)%nat -> rder (fun h => do x <- f h; Ok (x i)) 0 (l i).
  Proof.
    intros n f l i (g & de & Hd & H & D) Hi. exists (fun h => g h i), de. split; auto. split; [|apply D; auto].
    intros y Hy. rewrite Rminus_0_r in Hy. rewrite H by auto. reflexivity.
  Qed.

  Ltac bindrw := repeat (match goal with
    | H : sval ?a s = Ok _ |- context [sval ?a s] => rewrite H
    | H : sjac ?a s = Ok _ |- context [sjac ?a s] => rewrite H
    | H : vval ?a s = Ok _ |- context [vval ?a s] => rewrite H
    | H : vjac ?a s = Ok _ |- context [vjac ?a s] => rewrite H end; cbn [bind]).

  Lemma vder_two : forall n f1 l1 (f2 : R -> res R) l2 (F : vec R -> R -> vec R) (l : vec R), vder n f1 l1 -> rder f2 0 l2 ->
    (forall g1 g2 i, (i < n)%nat -> (forall k, (k < n)%nat -> derivable_pt_lim (fun h => g1 h k) 0 (l1 k)) -> derivable_pt_lim g2 0 l2 -> f1 0 = Ok (g1 0) -> f2 0 = Ok (g2 0) -> derivable_pt_lim (fun h => F (g1 h) (g2 h) i) 0 (l i)) ->
    vder n (fun h => do x <- f1 h; do y <- f2 h; Ok (F x y)) l.
  Proof.
    intros n f1 l1 f2 l2 F l (g1 & d1 & P1 & H1 & D1) (g2 & d2 & P2 & H2 & D2) HF. exists (fun h => F (g1 h) (g2 h)), (Rmin d1 d2). split; [apply Rmin_glb_lt; auto|]. split.
    - intros y Hy. rewrite H1 by (eapply Rlt_le_trans; [apply Hy|apply Rmin_l]). cbn [bind]. rewrite H2; auto. rewrite Rminus_0_r. eapply Rlt_le_trans; [apply Hy|apply Rmin_r].
    - intros i Hi. apply HF; auto; [apply H1; rewrite Rabs_R0; auto|apply H2; rewrite Rminus_0_r, Rabs_R0; auto].
  Qed.

  Lemma expr_main :
    (forall e, swf e -> sdom e s -> (swidth e <= w)%nat -> exists D v ops, sgood e D v ops) /\
    (forall e, vwf e -> vdom e s -> (vwidth e <= w)%nat -> exists D v ops, vgood e D v ops /\ (vsize e <= w)%nat /\ (1 <= w)%nat) /\
    (forall l, lwf l -> ldom l s -> (lwidth l <= w)%nat -> (1 <= w)%nat -> exists D v, lgood l D v).
  Proof.
    assert (SW : forall e, (1 <= swidth e)%nat /\ True).
    { intros e. split; auto. revert e. apply (sexpr_mut (fun e => 1 <= swidth e)%nat (fun v => 1 <= vwidth v)%nat (fun l => 1 <= lwidth l)%nat); intros; cbn [swidth vwidth lwidth] in *; lia. }
    apply expr_ind.
    - (* SVar *) intros d Hd _ Hw. cbn [swf swidth] in *. exists (fun d' i j => if (dv_id d =? dv_id d')%nat then delta i j else 0), (s (dv_id d) 0%nat), [CAddId d].
      split; [reflexivity|]. split; [reflexivity|]. split; [rewrite <- Hd; apply conV|]. split; [auto|]. intros d' j. split.
      + unfold partial. cbn [sval]. apply rder_total. unfold perturb. destruct (Nat.eqb_spec (dv_id d) (dv_id d')) as [E|E]; cbn [andb].
        * unfold delta. destruct (Nat.eqb_spec 0 j); [|apply der_const]. apply (der_eq _ _ (0 + 1)); [cbn; ring|]. apply der_plus; [apply der_const|apply der_id].
        * apply der_const.
      + cbn [sval]. rewrite pert0. auto.
    - (* SConst *) intros c _ _ Hw. exists (fun _ _ _ => 0), c, []. split; [reflexivity|]. split; [reflexivity|]. split; [apply con0|]. split; [auto|]. intros. split; auto. apply rder_total. apply der_const.
    - (* SMul *) intros a IHa b IHb (Wa & Wb) (Da & Db) Hw. cbn [swidth] in Hw. destruct IHa as (D1 & v1 & o1 & G1); auto; [lia|]. destruct IHb as (D2 & v2 & o2 & G2); auto; [lia|].
      pose proof (proj1 (SW a)). do 3 eexists. apply (good_bin a b _ (fun x y => Ok (x * y)) v2 v1 D1 D2 v1 v2 (v1 * v2) o1 o2); auto; try lia.
      + destruct G1 as (? & ? & _). destruct G2 as (? & ? & _). cbn [sjac]. bindrw. reflexivity.
      + intros. apply rd_mul; auto.
    - (* SDiv *) intros a IHa b IHb (Wa & Wb) (Da & Db & N) Hw. cbn [swidth] in Hw. destruct IHa as (D1 & v1 & o1 & G1); auto; [lia|]. destruct IHb as (D2 & v2 & o2 & G2); auto; [lia|].
      pose proof (proj1 (SW a)). assert (N2 : v2 <> 0) by (apply N, G2). do 3 eexists. apply (good_bin a b _ fdiv (1 / v2) (- v1 * (1 / v2) * (1 / v2)) D1 D2 v1 v2 (v1 / v2) o1 o2); auto; try lia.
      + destruct G1 as (? & ? & _). destruct G2 as (? & ? & _). cbn [sjac]. bindrw. rewrite fdiv_ok by auto. cbn [bind]. bindrw. reflexivity.
      + apply fdiv_ok; auto.
      + intros. apply rd_div; auto.
    - (* SNeg *) intros a IHa Wa Da Hw. cbn [swidth] in Hw. destruct IHa as (D1 & v1 & o1 & G1); auto. pose proof (proj1 (SW a)). do 3 eexists. apply (good_un a _ (fun x => Ok (- x)) (-1) D1 v1 (- v1) o1); auto; try lia.
      + destruct G1 as (? & ? & _). cbn [sjac]. bindrw. reflexivity.
      + apply rd_neg.
    - (* SAdd *) intros a IHa b IHb m (Wa & Wb) (Da & Db) Hw. cbn [swidth] in Hw. destruct IHa as (D1 & v1 & o1 & G1); auto; [lia|]. destruct IHb as (D2 & v2 & o2 & G2); auto; [lia|].
      pose proof (proj1 (SW a)). destruct G1 as (Ev & Ej & C & I1 & P). destruct G2 as (Ev2 & Ej2 & C2 & I2 & P2).
      exists (fun d i j => D1 d i j + m * D2 d i j), (v1 + m * v2), (o1 ++ scope (CApplyS m) o2). split; [cbn [sval]; bindrw; auto|]. split; [cbn [sjac]; bindrw; auto|].
      cbn [sdepth sdvs]. split; [apply (conA 1 w _ _ _ D1 (fun d i j => m * D2 d i j)); eapply con_w; [|eassumption| |apply conS; [|eassumption]]; lia|].
      split; [rewrite ops_app, ops_scopeS; apply in_app_l; auto|]. intros d j. destruct (P d j) as (P1 & Q1). destruct (P2 d j) as (P3 & Q3). split.
      + unfold partial. cbn [sval]. eapply rd_add; eauto.
      + cbn [sval]. rewrite Q1. cbn [bind]. rewrite Q3. auto.
    - (* SSqrt *) intros a IHa Wa (Da & N) Hw. cbn [swidth] in Hw. destruct IHa as (D1 & v1 & o1 & G1); auto. assert (0 < v1) by (apply N, G1). pose proof (sqrt_lt_R0 _ H). pose proof (proj1 (SW a)).
      do 3 eexists. apply (good_un a _ (fun x => do x <- need_pos x; Ok (sqrt x)) (1 / (2 * sqrt v1)) D1 v1 (sqrt v1) o1); auto; try lia.
      + destruct G1 as (? & ? & _). cbn [sjac]. bindrw. rewrite fsqrt_ok by lra. cbn [bind]. rewrite fdiv_ok by lra. cbn [bind]. bindrw. reflexivity.
      + unfold need_pos. destruct Rlt_dec; [auto|lra].
      + apply rd_sqrt; auto.
    - (* SLog *) intros a IHa Wa (Da & N) Hw. cbn [swidth] in Hw. destruct IHa as (D1 & v1 & o1 & G1); auto. assert (0 < v1) by (apply N, G1). pose proof (proj1 (SW a)).
      do 3 eexists. apply (good_un a _ (fun x => do x <- need_pos x; Ok (ln x)) (1 / v1) D1 v1 (ln v1) o1); auto; try lia.
      + destruct G1 as (? & ? & _). cbn [sjac]. bindrw. rewrite fdiv_ok by lra. cbn [bind]. bindrw. reflexivity.
      + unfold need_pos. destruct Rlt_dec; [auto|lra].
      + apply rd_ln; auto.
    - (* SExp *) intros a IHa Wa Da Hw. cbn [swidth] in Hw. destruct IHa as (D1 & v1 & o1 & G1); auto. pose proof (proj1 (SW a)). do 3 eexists. apply (good_un a _ (fun x => Ok (exp x)) (exp v1) D1 v1 (exp v1) o1); auto; try lia.
      + destruct G1 as (? & ? & _). cbn [sjac]. bindrw. reflexivity.
      + apply rd_exp.
    - (* SAtan *) intros a IHa Wa Da Hw. cbn [swidth] in Hw. destruct IHa as (D1 & v1 & o1 & G1); auto. pose proof (proj1 (SW a)). do 3 eexists. apply (good_un a _ (fun x => Ok (atan x)) (1 / (1 + v1 * v1)) D1 v1 (atan v1) o1); auto; try lia.
      + destruct G1 as (? & ? & _). cbn [sjac]. bindrw. rewrite fdiv_ok by apply one_x2. cbn [bind]. bindrw. reflexivity.
      + apply rd_atan.
    - (* STanh *) intros a IHa Wa Da Hw. cbn [swidth] in Hw. destruct IHa as (D1 & v1 & o1 & G1); auto. pose proof (proj1 (SW a)). do 3 eexists. apply (good_un a _ (fun x => Ok (tanh x)) (1 - tanh v1 * tanh v1) D1 v1 (tanh v1) o1); auto; try lia.
      + destruct G1 as (? & ? & _). cbn [sjac]. bindrw. reflexivity.
      + apply rd_tanh.
    - (* SAtan2 *) intros a IHa b IHb (Wa & Wb) (Da & Db & N) Hw. cbn [swidth] in Hw. destruct IHa as (D1 & v1 & o1 & G1); auto; [lia|]. destruct IHb as (D2 & v2 & o2 & G2); auto; [lia|].
      pose proof (proj1 (SW a)). assert (N2 : v1 <> 0 \/ 0 < v2) by (apply N; [apply G1|apply G2]). assert (N3 : v1 * v1 + v2 * v2 <> 0).
      { destruct N2 as [N2|N2]; [pose proof (Rsqr_pos_lt _ N2); unfold Rsqr in *; nra|nra]. }
      do 3 eexists. apply (good_bin a b _ (fun x y => Ok (atan2 x y)) (v2 * (1 / (v1 * v1 + v2 * v2))) (- v1 * (1 / (v1 * v1 + v2 * v2))) D1 D2 v1 v2 (atan2 v1 v2) o1 o2); auto; try lia.
      + destruct G1 as (? & ? & _). destruct G2 as (? & ? & _). cbn [sjac]. bindrw. rewrite fdiv_ok by auto. cbn [bind]. bindrw. reflexivity.
      + intros. apply rd_atan2; auto.
    - (* SAcos *) intros a IHa Wa (Da & N) Hw. cbn [swidth] in Hw. destruct IHa as (D1 & v1 & o1 & G1); auto. assert (N1 : -1 < v1 < 1) by (apply N, G1). pose proof (sqrt_lt_R0 _ (acos_root _ N1)). pose proof (proj1 (SW a)).
      do 3 eexists. apply (good_un a _ (fun x => if Rle_dec (-1) x then if Rle_dec x 1 then Ok (acos x) else Throw else Throw) (-1 / sqrt (1 - v1 * v1)) D1 v1 (acos v1) o1); auto; try lia.
      + destruct G1 as (? & ? & _). cbn [sjac]. bindrw. destruct Rle_dec; [|lra]. pose proof (acos_root _ N1). rewrite fsqrt_ok by lra. cbn [bind]. rewrite fdiv_ok by lra. cbn [bind]. bindrw. reflexivity.
      + destruct Rle_dec; [|lra]. destruct Rle_dec; [auto|lra].
      + apply rd_acos; auto.
    - (* SAcosSq *) intros a IHa Wa (Da & N) Hw. cbn [swidth] in Hw. destruct IHa as (D1 & v1 & o1 & G1); auto. destruct (N v1 (proj1 G1)) as (N1 & N2). pose proof (sqrt_lt_R0 _ (acos_root _ N1)). pose proof (proj1 (SW a)).
      do 3 eexists. apply (good_un a _ (fun x => if Rle_dec x 1 then if Rle_dec (-1) x then Ok (acos x * acos x) else Throw else Throw) (-2 * acos v1 / sqrt (1 - v1 * v1)) D1 v1 (acos v1 * acos v1) o1); auto; try lia.
      + destruct G1 as (? & ? & _). cbn [sjac]. bindrw. destruct Rlt_dec; [lra|]. pose proof (acos_root _ N1). rewrite fsqrt_ok by lra. cbn [bind]. rewrite fdiv_ok by lra. cbn [bind]. bindrw. reflexivity.
      + destruct Rle_dec; [|lra]. destruct Rle_dec; [auto|lra].
      + apply rd_acosSq; auto.
    - (* SSigmoid *) intros a IHa hh sc sh Wa Da Hw. cbn [swidth] in Hw. destruct IHa as (D1 & v1 & o1 & G1); auto. pose proof (proj1 (SW a)). pose proof (cosh_pos (1 / 2 * sc * (sh - v1))).
      do 3 eexists. apply (good_un a _ (fun x => Ok (hh * (1/2) * (1 + tanh (- sc * (x - sh) * (1/2))))) (- (1/4) * hh * sc * (1 / cosh (1 / 2 * sc * (sh - v1))) * (1 / cosh (1 / 2 * sc * (sh - v1)))) D1 v1 (hh * (1/2) * (1 + tanh (- sc * (v1 - sh) * (1/2)))) o1); auto; try lia.
      + destruct G1 as (? & ? & _). cbn [sjac]. bindrw. rewrite fdiv_ok by lra. cbn [bind]. bindrw. reflexivity.
      + apply rd_sigmoid. auto.
    - (* SPow *) intros a IHa k Wa (Da & N) Hw. cbn [swidth] in Hw. destruct IHa as (D1 & v1 & o1 & G1); auto. pose proof (proj1 (SW a)). destruct (rd_pow k v1 (N v1 (proj1 G1))) as (t & Et & Rt). destruct (rder_val _ _ _ Rt) as (v' & Ev').
      do 3 eexists. apply (good_un a _ (fun x => fpow x k) (IZR k * t) D1 v1 v' o1); auto; try lia.
      destruct G1 as (? & ? & _). cbn [sjac]. bindrw. rewrite Et. cbn [bind]. bindrw. reflexivity.
    - (* SPiece *) intros a IHa b IHb c (Wa & Wb) (Dc & Lc) Hw. cbn [swidth] in Hw.
      assert (G : exists e D v ops, (if c s then a else b) = e /\ sgood e D v ops /\ (sdepth e <= sdepth (SPiece a b c))%nat /\ (forall x, In x (sdvs e) -> In x (sdvs a ++ sdvs b))).
      { destruct (c s); [destruct IHa as (D & v & o & G); auto; [lia|]|destruct IHb as (D & v & o & G); auto; [lia|]]; do 4 eexists; split; [reflexivity| |reflexivity|]; (split; [exact G|]; cbn [sdepth]; split; [lia|]; intros; apply in_or_app; auto). }
      destruct G as (e & D & v & ops & Ee & (Ev & Ej & C & I1 & P) & Le & Si). exists D, v, ops. split; [cbn [sval]; destruct (c s); subst; auto|]. split; [cbn [sjac]; destruct (c s); subst; auto|].
      split; [eapply con_w; [|exact C]; auto|]. split; [cbn [sdvs]; auto|]. intros d j. destruct (P d j) as (P1 & P2). destruct (Lc d j) as (de & Hde & Ec). split.
      + unfold partial. cbn [sval]. apply (rder_near (fun h => sval e (perturb s d j h)) _ _ _ de); auto. intros y Hy. rewrite Rminus_0_r in Hy. rewrite Ec by auto. destruct (c s); subst; auto.
      + cbn [sval]. rewrite Ec by (rewrite Rabs_R0; auto). destruct (c s); subst; auto.
    - (* SSin *) intros a IHa Wa Da Hw. cbn [swidth] in Hw. destruct IHa as (D1 & v1 & o1 & G1); auto. pose proof (proj1 (SW a)). do 3 eexists. apply (good_un a _ (fun x => Ok (sin x)) (cos v1) D1 v1 (sin v1) o1); auto; try lia.
      + destruct G1 as (? & ? & _). cbn [sjac]. bindrw. reflexivity.
      + apply rd_sin.
    - (* SCos *) intros a IHa Wa Da Hw. cbn [swidth] in Hw. destruct IHa as (D1 & v1 & o1 & G1); auto. pose proof (proj1 (SW a)). do 3 eexists. apply (good_un a _ (fun x => Ok (cos x)) (- sin v1) D1 v1 (cos v1) o1); auto; try lia.
      + destruct G1 as (? & ? & _). cbn [sjac]. bindrw. reflexivity.
      + apply rd_cos.
    - (* SComp *) intros v IHv i (Wv & Hi) Dv Hw. cbn [swidth sdom] in *. destruct IHv as (D & x & ops & (Ev & Ej & C & I1 & P) & Sw & _); auto.
      exists (fun d i0 j => D d i j), (x i), (scope (CApply (unit_row (vsize v) i)) ops). split; [cbn [sval]; bindrw; auto|]. split; [cbn [sjac]; bindrw; auto|]. cbn [sdepth sdvs].
      split. { eapply con_ext; [|apply (conM 1 (vsize v) w (vdepth v) ops D (fun _ c => delta i c)); auto]. intros d r j _. apply (@ksum_delta_l R RRing (vsize v) i (fun k => D d k j)). auto. }
      split; [rewrite ops_scopeM; auto|]. intros d j. destruct (P d j) as (P1 & v' & P2 & P3). split.
      + unfold partial. cbn [sval]. apply (vder_comp (vsize v) _ (fun i => D d i j)); auto.
      + cbn [sval]. rewrite P2. cbn [bind]. rewrite P3; auto.
    - (* VVar *) intros d _ _ Hw. cbn [vwidth] in Hw. exists (fun d' i j => if (dv_id d =? dv_id d')%nat then delta i j else 0), (s (dv_id d)), [CAddId d]. cbn [vsize]. split; [|split; lia].
      split; [reflexivity|]. split; [reflexivity|]. split; [apply conV|]. split; [auto|]. intros d' j. split.
      + exists (fun h => perturb s d' j h (dv_id d)), 1. split; [lra|]. split; [auto|]. intros i Hi. unfold perturb. destruct (Nat.eqb_spec (dv_id d) (dv_id d')) as [E|E]; cbn [andb].
        * unfold delta. destruct (Nat.eqb_spec i j); [|apply der_const]. apply (der_eq _ _ (0 + 1)); [cbn; ring|]. apply der_plus; [apply der_const|apply der_id].
        * apply der_const.
      + eexists. split; [reflexivity|]. intros. apply pert0.
    - (* VConst *) intros n x _ _ Hw. cbn [vwidth] in Hw. exists (fun _ _ _ => 0), x, []. cbn [vsize]. split; [|split; lia]. split; [reflexivity|]. split; [reflexivity|]. split; [apply con0|]. split; [auto|]. intros d j. split.
      + exists (fun _ => x), 1. split; [lra|]. split; auto. intros. apply der_const.
      + eexists. split; [reflexivity|auto].
    - (* VStack *) intros l IHl Wl Dl Hw. cbn [vwidth vwf vdom] in *. destruct IHl as (D & x & (Ev & P & _ & J)); auto; try lia. destruct (J (slen l) 0%nat) as (ops & Ej & I1 & C); [lia|].
      exists D, x, ops. cbn [vsize]. split; [|split; lia]. split; [exact Ev|]. split; [exact Ej|]. cbn [vsize vdepth vdvs]. split; [|split; auto].
      eapply con_ext; [|exact C]. intros d r j _. cbn beta. replace (r - 0)%nat with r by lia. auto.
    - (* VAdd *) intros a IHa b IHb (Wa & Wb & Sz) (Da & Db) Hw. cbn [vwidth] in Hw. destruct IHa as (D1 & v1 & o1 & (Ev & Ej & C & I1 & P) & S1 & W1); auto; [lia|]. destruct IHb as (D2 & v2 & o2 & (Ev2 & Ej2 & C2 & I2 & P2) & _ & _); auto; [lia|].
      exists (fun d i j => D1 d i j + D2 d i j), (fun i => v1 i + v2 i), (o1 ++ o2). cbn [vsize]. split; [|split; lia]. split; [cbn [vval]; bindrw; auto|]. split; [cbn [vjac]; bindrw; auto|]. cbn [vsize vdepth vdvs].
      split; [apply (conA (vsize a) w _ _ _ D1 D2); [eapply con_w; [|exact C]; lia|rewrite Sz; eapply con_w; [|exact C2]; lia]|]. split; [rewrite ops_app; apply in_app_l; auto|].
      intros d j. destruct (P d j) as ((g1 & e1 & Q1 & R1 & T1) & w1 & X1 & Y1). destruct (P2 d j) as ((g2 & e2 & Q2 & R2 & T2) & w2 & X2 & Y2). split.
      + exists (fun h i => g1 h i + g2 h i), (Rmin e1 e2). split; [apply Rmin_glb_lt; auto|]. split.
        * intros y Hy. cbn [vval]. rewrite R1 by (eapply Rlt_le_trans; [apply Hy|apply Rmin_l]). cbn [bind]. rewrite R2 by (eapply Rlt_le_trans; [apply Hy|apply Rmin_r]). reflexivity.
        * intros i Hi. apply der_plus; [apply T1; auto|apply T2; lia].
      + cbn [vval]. rewrite X1. cbn [bind]. rewrite X2. eexists. split; [reflexivity|]. intros i Hi. cbn beta. rewrite Y1, Y2 by lia. auto.
    - (* VScale *) intros p IHp e IHe (Wp & We) (Dp & De) Hw. cbn [vwidth] in Hw. destruct IHp as (D1 & v1 & o1 & (Ev & Ej & C & I1 & P) & S1 & W1); auto; [lia|]. destruct IHe as (D2 & v2 & o2 & (Ev2 & Ej2 & C2 & I2 & P2)); auto; [lia|].
      exists (fun d i j => v2 * D1 d i j + v1 i * D2 d 0%nat j), (fun i => v1 i * v2), (scope (CApplyS v2) o1 ++ scope (CApply (mkD (vsize p) 1 (fun r _ => v1 r))) o2). cbn [vsize]. split; [|split; lia].
      split; [cbn [vval]; bindrw; auto|]. split; [cbn [vjac]; bindrw; auto|]. cbn [vsize vdepth vdvs]. split.
      { apply (conA (vsize p) w _ _ _ (fun d i j => v2 * D1 d i j) (fun d i j => v1 i * D2 d 0%nat j)); [eapply con_w; [|apply conS; [auto|exact C]]; lia|].
        eapply con_ext; [|eapply con_w; [|apply (conM (vsize p) 1 w (sdepth e) o2 D2 (fun r _ => v1 r)); [lia|exact C2]]; lia]. intros d i j _. cbn. ring. }
      split; [rewrite ops_app, ops_scopeS, ops_scopeM; apply in_app_l; auto|]. intros d j. destruct (P d j) as (T1 & w1 & X1 & Y1). destruct (P2 d j) as (T2 & X2). split.
      + cbn [vval]. apply (vder_two (vsize p) (fun h => vval p (perturb s d j h)) (fun i => D1 d i j) (fun h => sval e (perturb s d j h)) (D2 d 0%nat j) (fun x y i => x i * y)); auto.
        intros g1 g2 i Hi G1 G2 E1 E2. eapply der_eq; [|apply der_mul; [apply G1; auto|exact G2]]. rewrite X1 in E1. injection E1 as E1. rewrite X2 in E2. injection E2 as E2. cbn beta. rewrite <- E1, <- E2, Y1 by auto. ring.
      + cbn [vval]. rewrite X1. cbn [bind]. rewrite X2. eexists. split; [reflexivity|]. intros i Hi. cbn beta. rewrite Y1 by auto. auto.
    - (* SNil *) intros _ _ _ _. exists (fun _ _ _ => 0), (fun _ => 0). split; [reflexivity|]. split; [|split; auto].
      + intros d j. split; [|eexists; split; [reflexivity|auto]]. exists (fun _ _ => 0), 1. split; [lra|]. split; auto. intros. apply der_const.
      + intros n i _. exists []. split; [reflexivity|]. split; [auto|]. eapply con_ext; [|apply con0]. intros d r j _. destruct (_ <? _)%nat; auto.
    - (* SCons *) intros a IHa l IHl (Wa & Wl) (Da & Dl) Hw W1. cbn [lwidth] in Hw. destruct IHa as (D1 & v1 & o1 & (Ev & Ej & C & I1 & P)); auto; [lia|]. destruct IHl as (D2 & v2 & (Ev2 & P2 & Z & J)); auto; [lia|].
      exists (fun d i j => match i with O => D1 d 0%nat j | S i' => D2 d i' j end), (fun i => match i with O => v1 | S i' => v2 i' end). split; [cbn [lval]; rewrite Ev; cbn [bind]; rewrite Ev2; auto|]. cbn [slen]. split; [|split].
      + intros d j. destruct (P d j) as ((g1 & e1 & Q1 & R1 & T1) & X1). destruct (P2 d j) as ((g2 & e2 & Q2 & R2 & T2) & w2 & X2 & Y2). split.
        * exists (fun h i => match i with O => g1 h | S i' => g2 h i' end), (Rmin e1 e2). split; [apply Rmin_glb_lt; auto|]. split.
          -- intros y Hy. cbn [lval]. rewrite R1 by (rewrite Rminus_0_r; eapply Rlt_le_trans; [apply Hy|apply Rmin_l]). cbn [bind]. rewrite R2 by (eapply Rlt_le_trans; [apply Hy|apply Rmin_r]). reflexivity.
          -- intros [|i] Hi; [exact T1|apply T2; lia].
        * cbn [lval]. rewrite X1. cbn [bind]. rewrite X2. eexists. split; [reflexivity|]. intros [|i] Hi; auto. apply Y2. lia.
      + intros d [|r] j Hr; [lia|]. apply Z. lia.
      + intros n i Hn. destruct (J n (S i)) as (ops & Ejl & I2 & C2); [lia|]. exists (scope (CApply (unit_col n i)) o1 ++ ops). split; [cbn [ljac]; rewrite Ej; cbn [bind]; rewrite Ejl; auto|].
        split; [rewrite ops_app, ops_scopeM; cbn [ldvs]; apply in_app_l; auto|]. cbn [ldepth].
        eapply con_ext; [|apply (conA n w _ _ _ (fun d => mmul 1 (fun r _ => delta r i) (D1 d))); [eapply con_w; [|apply (conM n 1 w (sdepth a) o1 D1 (fun r _ => delta r i)); [lia|exact C]]; lia|eapply con_w; [|exact C2]; lia]].
        intros d r j Hr. cbn beta. replace (mmul 1 (fun r0 _ : nat => delta r0 i) (D1 d) r j) with (delta r i * D1 d 0%nat j) by (cbn; ring).
        destruct (Nat.ltb_spec r i); [destruct (Nat.ltb_spec r (S i)); [|lia]; rewrite delta_neq by lia; cbn; ring|].
        destruct (Nat.ltb_spec r (S i)).
        * replace r with i by lia. rewrite delta_refl, Nat.sub_diag. cbn. ring.
        * rewrite delta_neq by lia. replace (r - i)%nat with (S (r - S i)) by lia. cbn. ring.
  Qed.
End S.
