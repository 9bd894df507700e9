(** * Empty expressions (proofs only) *)
From Coq Require Import Arith Lia List ZArith Bool Reals Lra FunctionalExtensionality.
From Verif Require Import Lib_Ring Lib_Real Lib_Res MatrixStack_Model DesignVar_Base Jacobian_Model Scalar_Model Geo_Model Geo_Spec Geo_Algebra Empty_Model.
Import ListNotations.
Local Open Scope R_scope.

Section P.
  Variables (X : kinematics) (s : state).
  Ltac hs := repeat match goal with a : handle _ |- _ => destruct a end; cbn in *; try discriminate.
  Lemma add_val : forall a b x y, heval X a s = Ok x -> heval X b s = Ok y -> heval X (e_add a b) s = Ok (fun i => x i + y i).
  Proof.
    intros a b x y Ha Hb. hs; repeat match goal with H : Ok _ = Ok _ |- _ => injection H as <- | H : _ = Ok _ |- _ => rewrite H end; cbn [bind]; f_equal; apply functional_extensionality; intros; ring.
  Qed.
  Lemma add_jac : forall a b ja jb, hejac X a s = Ok ja -> hejac X b s = Ok jb -> hejac X (e_add a b) s = Ok (ja ++ jb).
  Proof. intros a b x y Ha Hb. hs; repeat match goal with H : Ok _ = Ok _ |- _ => injection H as <- | H : _ = Ok _ |- _ => rewrite H end; cbn [bind]; rewrite ?app_nil_r; reflexivity. Qed.
  Lemma sum_val : forall l a x xs, heval X a s = Ok x -> Forall2 (fun e v => heval X e s = Ok v) l xs -> heval X (fold_left e_add l a) s = Ok (fun i => x i + lsum xs (fun v => v i)).
  Proof.
    induction l as [|e l IH]; intros a x xs Ha F; inversion F; subst; cbn [fold_left lsum].
    - rewrite Ha. f_equal. apply functional_extensionality. intros i. cbn. ring.
    - rewrite (IH (e_add a e) (fun i => x i + y i) l'); auto; [|apply add_val; auto]. f_equal. apply functional_extensionality. intros i. cbn. ring.
  Qed.
  Lemma sum_jac : forall l a j js, hejac X a s = Ok j -> Forall2 (fun e v => hejac X e s = Ok v) l js -> hejac X (fold_left e_add l a) s = Ok (j ++ concat js).
  Proof.
    induction l as [|e l IH]; intros a x xs Ha F; inversion F; subst; cbn [fold_left concat].
    - rewrite app_nil_r. auto.
    - rewrite (IH (e_add a e) (x ++ y) l'); auto; [rewrite app_assoc; auto|apply add_jac; auto].
  Qed.
  Lemma sub_val : forall a b x y, isEmpty a = false \/ isEmpty b = true -> heval X a s = Ok x -> heval X b s = Ok y -> heval X (e_sub a b) s = Ok (fun i => x i - y i).
  Proof.
    intros a b x y C Ha Hb. hs; repeat match goal with H : Ok _ = Ok _ |- _ => injection H as <- | H : _ = Ok _ |- _ => rewrite H end; cbn [bind]; try (destruct C; discriminate); f_equal; apply functional_extensionality; intros; ring.
  Qed.
  Lemma subc_val : forall a x c, isEmpty a = false -> heval X a s = Ok x -> heval X (e_subc a c) s = Ok (fun i => x i - c i).
  Proof. intros a x c C Ha. hs. rewrite Ha. reflexivity. Qed.
  Lemma neg_val : forall a x, heval X a s = Ok x -> heval X (e_neg a) s = Ok (fun i => - x i).
  Proof. intros a x Ha. hs; repeat match goal with H : Ok _ = Ok _ |- _ => injection H as <- | H : _ = Ok _ |- _ => rewrite H end; cbn [bind]; f_equal. apply functional_extensionality; intros; ring. Qed.
  Lemma crossm_0_l : forall y, (fun _ => 0) = mvmul 3 (crossm (fun _ => 0)) y.
  Proof. intros y. apply functional_extensionality. intros i. unfold mvmul. rewrite ks3. destruct i as [|[|[|i]]]; cbn; ring. Qed.
  Lemma mv_0_r : forall (A : mat R), (fun _ => 0) = mvmul 3 A (fun _ => 0).
  Proof. intros A. apply functional_extensionality. intros i. unfold mvmul. rewrite ks3. cbn. ring. Qed.
  Lemma cross_val : forall a b x y, heval X a s = Ok x -> heval X b s = Ok y -> heval X (e_cross a b) s = Ok (mvmul 3 (crossm x) y).
  Proof.
    intros a b x y Ha Hb. destruct a, b; cbn [e_cross isEmpty orb heval mk2 vxval] in *; try discriminate; [| | |rewrite Ha, Hb; reflexivity]; repeat match goal with H : Ok _ = Ok _ |- _ => injection H as <- end; first [exact (f_equal (@Ok (vec R)) (crossm_0_l _)) | exact (f_equal (@Ok (vec R)) (mv_0_r _)) | idtac].
  Qed.
  Lemma scale_val : forall a e x y, heval X a s = Ok x -> sxval X e s = Ok y -> heval X (e_scale a e) s = Ok (fun i => x i * y).
  Proof. intros a e x y Ha He. hs; repeat match goal with H : Ok _ = Ok _ |- _ => injection H as <- | H : _ = Ok _ |- _ => rewrite H end; cbn [bind]; f_equal. apply functional_extensionality; intros; ring. Qed.

  (** rotations and transformations: the empty ones are the identity *)
  Lemma rmul_val : forall n a b A B, hrot X a s = Ok A -> hrot X b s = Ok B -> exists C, hrot X (r_mul n a b) s = Ok C /\ meq 3 3 C (mmul 3 A B).
  Proof.
    intros n a b A B Ha Hb. destruct a, b; cbn [r_mul isEmpty hrot mk2 rxval] in *; try discriminate; repeat match goal with H : Ok _ = Ok _ |- _ => injection H as <- end.
    - exists mid. split; auto. intros i j Hi Hj. symmetry. apply (mmul_id_l 3 3); auto.
    - exists B. split; auto. intros i j Hi Hj. symmetry. apply (mmul_id_l 3 3); auto.
    - exists A. split; auto. intros i j Hi Hj. symmetry. apply (mmul_id_r 3 3); auto.
    - rewrite Ha, Hb. cbn [bind]. exists (mmul 3 A B). split; auto. intros i j _ _. reflexivity.
  Qed.
  Lemma rinv_val : forall n a A, hrot X a s = Ok A -> exists C, hrot X (r_inv n a) s = Ok C /\ meq 3 3 C (mtr A).
  Proof.
    intros n a A Ha. destruct a; cbn [r_inv isEmpty hrot mk1 rxval] in *; try discriminate.
    - injection Ha as <-. exists mid. split; auto. intros i j _ _. unfold mtr, mid. apply delta_sym.
    - rewrite Ha. cbn [bind]. exists (mtr A). split; auto. intros i j _ _. reflexivity.
  Qed.
  Lemma rapply_val : forall n a p A x, hrot X a s = Ok A -> heval X p s = Ok x -> exists y, heval X (r_apply n a p) s = Ok y /\ veq 3 y (mvmul 3 A x).
  Proof.
    intros n a p A x Ha Hp. destruct p; cbn [r_apply isEmpty heval] in *; try discriminate.
    - injection Hp as <-. exists (fun _ => 0). split; auto. intros i _. rewrite <- mv_0_r. reflexivity.
    - destruct a; cbn [isEmpty hrot mk2 heval vxval] in *; try discriminate.
      + injection Ha as <-. exists x. split; auto. intros i Hi. symmetry. apply mvmul_id; auto.
      + rewrite Ha, Hp. cbn [bind]. exists (mvmul 3 A x). split; auto. intros i _. reflexivity.
  Qed.
  Lemma tnew_val : forall r p A x, hrot X r s = Ok A -> heval X p s = Ok x -> exists T, htrf X (t_new r p) s = Ok T /\ meq 4 4 T (mk_T A x).
  Proof.
    intros r p A x Hr Hp. destruct r, p; cbn [hrot heval t_new htrf txval] in *; try discriminate; repeat match goal with H : Ok _ = Ok _ |- _ => injection H as <- | H : _ = Ok _ |- _ => rewrite H end; cbn [bind]; eexists; (split; [reflexivity|]); intros i j Hi Hj; try reflexivity.
    unfold mk_T, mid, delta. idx i; idx j; reflexivity.
  Qed.
  Lemma tmul_val : forall n a b A B, htrf X a s = Ok A -> htrf X b s = Ok B -> exists C, htrf X (t_mul n a b) s = Ok C /\ meq 4 4 C (mmul 4 A B).
  Proof.
    intros n a b A B Ha Hb. destruct a, b; cbn [t_mul isEmpty htrf mk2 txval] in *; try discriminate; repeat match goal with H : Ok _ = Ok _ |- _ => injection H as <- end.
    - exists mid. split; auto. intros i j Hi Hj. symmetry. apply (mmul_id_l 4 4); auto.
    - exists B. split; auto. intros i j Hi Hj. symmetry. apply (mmul_id_l 4 4); auto.
    - exists A. split; auto. intros i j Hi Hj. symmetry. apply (mmul_id_r 4 4); auto.
    - rewrite Ha, Hb. cbn [bind]. exists (mmul 4 A B). split; auto. intros i j _ _. reflexivity.
  Qed.
  Lemma trot_val : forall t T, htrf X t s = Ok T -> exists C, hrot X (t_rot t) s = Ok C /\ meq 3 3 C (rot_part T).
  Proof.
    intros t T Ht. destruct t as [|t|]; cbn [htrf t_rot] in *; try discriminate.
    - injection Ht as <-. exists mid. split; [reflexivity|]. intros i j Hi Hj. unfold rot_part, mid. reflexivity.
    - destruct t; cbn [txval hrot rxval] in *; try (rewrite Ht; eexists; split; [reflexivity|intros ? ? _ _; reflexivity]).
      + destruct (rxval X r s) as [C| |]; try discriminate. cbn [bind] in *. destruct (vxval X p s); try discriminate. injection Ht as <-. exists C. split; [reflexivity|]. intros i j Hi Hj. unfold rot_part, mk_T. idx i; idx j; reflexivity.
      + destruct (rxval X r s) as [C| |]; try discriminate. cbn [bind] in *. injection Ht as <-. exists C. split; [reflexivity|]. intros i j Hi Hj. unfold rot_part, mk_T. idx i; idx j; reflexivity.
      + destruct (vxval X p s); try discriminate. injection Ht as <-. exists mid. split; [reflexivity|]. intros i j Hi Hj. unfold rot_part, mk_T. idx i; idx j; reflexivity.
  Qed.
  Lemma ttrans_val : forall t T, htrf X t s = Ok T -> exists y, heval X (t_trans t) s = Ok y /\ veq 3 y (trans_part T).
  Proof.
    intros t T Ht. destruct t as [|t|]; cbn [htrf t_trans] in *; try discriminate.
    - injection Ht as <-. eexists. split; [reflexivity|]. intros i Hi. unfold trans_part, mid, delta. idx i; reflexivity.
    - destruct t; cbn [heval vxval] in *; try (rewrite Ht; eexists; split; [reflexivity|intros ? _; reflexivity]).
      cbn [txval] in Ht. destruct (vxval X p s) as [x| |]; try discriminate. injection Ht as <-. exists x. split; [reflexivity|]. intros i Hi. unfold trans_part, mk_T. idx i; reflexivity.
  Qed.
End P.

Section Q.
  Variables (X : kinematics) (s : state).
  Ltac hs := repeat match goal with a : handle _ |- _ => destruct a end; cbn in *; try discriminate.
  (* a defined value comes from a proper handle; applying a transformation to a proper point *)
  Lemma tapply_val : forall n t p T x, isEmpty t = true \/ isEmpty p = false -> htrf X t s = Ok T -> rigid T -> heval X p s = Ok x -> exists y, heval X (t_apply n t p) s = Ok y /\ forall i, (i < 3)%nat -> y i = mvmul 3 (rot_part T) x i + trans_part T i.
  Proof.
    intros n t p T x C Ht (HR & H0 & H1) Hp. destruct t as [|t|]; cbn [htrf t_apply isEmpty] in *; try discriminate.
    - exists x. split; auto. injection Ht as <-. intros i Hi. unfold mvmul, rot_part, trans_part, mid, delta. rewrite ks3. idx i; cbn; ring.
    - destruct p as [|p|]; cbn [heval isEmpty] in *; try discriminate; [destruct C; discriminate|]. cbn [e_hom mk1 mk2 heval vxval hxval]. rewrite Ht. cbn [bind]. rewrite Hp. cbn [bind].
      set (h := fun i => if (i <? 3)%nat then x i else 1). assert (E3 : mvmul 4 T h 3%nat = 1) by (unfold mvmul, h; rewrite ks4, !H0, H1 by lia; cbn; ring).
      unfold fromHom. destruct Req_EM_T as [E|E]; [exfalso; lra|]. eexists. split; [reflexivity|]. intros i Hi. rewrite E3. unfold mvmul, rot_part, trans_part, h. rewrite ks3, ks4. cbn. field.
  Qed.
  Lemma generic_val : (gval GNull s = Ok 0) /\ (forall a b x y, a <> GNull -> b <> GNull -> gval a s = Ok x -> gval b s = Ok y -> gval (GAdd a b) s = Ok (x + y) /\ gval (GSub a b) s = Ok (x - y) /\ gval (GMul a b) s = Ok (x * y) /\ gval (GNeg a) s = Ok (- x)).
  Proof.
    split; [reflexivity|]. intros a b x y Na Nb Ha Hb. assert (Ga : gnode a s = Ok x) by (destruct a; [congruence|..]; exact Ha). assert (Gb : gnode b s = Ok y) by (destruct b; [congruence|..]; exact Hb).
    cbn [gval gnode]. rewrite Ga. cbn [bind]. rewrite Gb. cbn [bind]. auto.
  Qed.
End Q.
