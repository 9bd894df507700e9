(** * Derivatives of the operations (proofs only) *)
From Coq Require Import Arith Lia List ZArith NArith Bool Reals Lra Ring FunctionalExtensionality.
From Verif Require Import Lib_Ring Lib_Real Lib_Res Lib_MatInv MatrixStack_Model DesignVar_Base Jacobian_Model Expr_Base Scalar_Model Scalar_Spec Scalar_Proofs MatExpr_Model MatExpr_Spec MatExpr_Proofs.
Import ListNotations.
Local Open Scope R_scope.

Ltac der_step :=
  match goal with
  | |- derivable_pt_lim (fun h => @?f h + @?g h) ?x _ => apply (der_plus f g x)
  | |- derivable_pt_lim (fun h => @?f h - @?g h) ?x _ => apply (der_minus f g x)
  | |- derivable_pt_lim (fun h => @?f h * @?g h) ?x _ => apply (der_mul f g x)
  | |- derivable_pt_lim (fun h => - @?f h) ?x _ => apply (der_opp f x)
  | |- derivable_pt_lim (fun _ => ?a) ?x _ => exact (der_const a x)
  | H : vtan ?n ?a _ |- derivable_pt_lim (fun h => ?a h ?i) 0 _ => apply (H i); lia
  | H : mtan ?r ?c ?a _ |- derivable_pt_lim (fun h => ?a h ?i ?k) 0 _ => apply (H i k); lia
  end.
Ltac cases4 i Hi := destruct i as [|[|[|[|i]]]]; [| | | |lia].
Ltac cases3 i Hi := destruct i as [|[|[|i]]]; [| | |lia].
Ltac der_all := eapply der_eq; [|repeat der_step].

Lemma tan_col : forall n F T, mtan n 1 F T <-> vtan n (fun h => cv (F h)) (cv T).
Proof. intros n F T. split. - intros H i Hi. apply (H i 0%nat); auto. - intros H i k Hi Hk. replace k with 0%nat by lia. apply (H i Hi). Qed.
Lemma tan_qmul : forall m a b a' b', vtan 4 a a' -> vtan 4 b b' -> vtan 4 (fun h => qmul m (a h) (b h)) (vadd (qmul m a' (b 0)) (qmul m (a 0) b')).
Proof. intros [[] []] a b a' b' Ha Hb i Hi; cases4 i Hi; cbn; (der_all; unfold vadd; cbn; ring). Qed.
Lemma tan_qmul43 : forall m a b a' b', vtan 4 a a' -> vtan 3 b b' -> vtan 4 (fun h => qmul43 m (a h) (b h)) (vadd (qmul43 m a' (b 0)) (qmul43 m (a 0) b')).
Proof. intros [[] []] a b a' b' Ha Hb i Hi; cases4 i Hi; cbn; (der_all; unfold vadd; cbn; ring). Qed.
Lemma tan_qconj : forall m a a', vtan 4 a a' -> vtan 4 (fun h => qconj m (a h)) (qconj m a').
Proof. intros [[] []] a a' Ha i Hi; cases4 i Hi; cbn; (der_all; cbn; ring). Qed.
Lemma tan_qimag : forall m a a', vtan 4 a a' -> vtan 3 (fun h => qimag m (a h)) (qimag m a').
Proof. intros [[] []] a a' Ha i Hi; cases3 i Hi; apply Ha; cbn; lia. Qed.
Lemma tan_to_last : forall m a a', vtan 4 a a' -> vtan 4 (fun h => to_last m (a h)) (to_last m a').
Proof. intros [[] []] a a' Ha i Hi; cases4 i Hi; cbn; apply Ha; lia. Qed.
Lemma tan_from_last : forall m a a', vtan 4 a a' -> vtan 4 (fun h => from_last m (a h)) (from_last m a').
Proof. intros [[] []] a a' Ha i Hi; cases4 i Hi; cbn; apply Ha; lia. Qed.
Lemma tan_eq : forall n f f' f'', vtan n f f' -> (forall i, (i < n)%nat -> f' i = f'' i) -> vtan n f f''.
Proof. intros n f f' f'' H E i Hi. rewrite <- E by auto. auto. Qed.
Lemma mtan_eq : forall r c f f' f'', mtan r c f f' -> meq r c f' f'' -> mtan r c f f''.
Proof. intros r c f f' f'' H E i k Hi Hk. rewrite <- E by auto. auto. Qed.
Lemma tan_fun : forall n f g f', vtan n f f' -> (forall h i, (i < n)%nat -> f h i = g h i) -> vtan n g f'.
Proof. intros n f g f' H E i Hi. apply (der_ext (fun h => f h i)); auto. Qed.
Lemma tan_mul : forall r n c F G T U, mtan r n F T -> mtan n c G U -> mtan r c (fun h => mmul n (F h) (G h)) (madd (mmul n T (G 0)) (mmul n (F 0) U)).
Proof.
  intros r n c F G T U HF HG i k Hi Hk. unfold mmul. eapply der_eq; [|apply der_ksum; intros x Hx; apply (der_mul (fun h => F h i x) (fun h => G h x k)); [apply HF; auto|apply HG; auto]].
  cbn beta. unfold madd, mmul. exact (ksum_add n (fun x => T i x * G 0 x k) (fun x => F 0 i x * U x k)).
Qed.

(** linear maps between vectors *)
Definition vlin (n n' : nat) (g : vec R -> vec R) : Prop :=
  (forall u v, (forall i, (i < n)%nat -> u i = v i) -> forall i, (i < n')%nat -> g u i = g v i) /\ (forall u v i, (i < n')%nat -> g (vadd u v) i = g u i + g v i) /\ (forall a u i, (i < n')%nat -> g (vscale a u) i = a * g u i).
Lemma lin_col : forall n n' g, vlin n n' g -> linear_map n 1 n' 1 (fun T => col (g (cv T))).
Proof.
  intros n n' g (E & A & S). split; [|split].
  - intros T U H i k Hi Hk. apply E; auto. intros x Hx. apply H; auto.
  - intros T U i k Hi Hk. exact (A (cv T) (cv U) i Hi).
  - intros a T i k Hi Hk. exact (S a (cv T) i Hi).
Qed.
Lemma vlin_comp : forall n n' n'' f g, vlin n n' f -> vlin n' n'' g -> vlin n n'' (fun v => g (f v)).
Proof.
  intros n n' n'' f g (E & A & S) (E' & A' & S'). split; [|split]; intros.
  - apply E'; auto.
  - rewrite <- A' by auto. apply E'; auto. intros x Hx. exact (A u v x Hx).
  - rewrite <- S' by auto. apply E'; auto. intros x Hx. exact (S a u x Hx).
Qed.
Lemma vlin_add : forall n n' f g, vlin n n' f -> vlin n n' g -> vlin n n' (fun v => vadd (f v) (g v)).
Proof.
  intros n n' f g (E & A & S) (E' & A' & S'). split; [|split]; intros; unfold vadd; cbn.
  - rewrite (E u v), (E' u v) by auto. auto.
  - change (f (vadd u v) i + g (vadd u v) i = f u i + g u i + (f v i + g v i)). rewrite A, A' by auto. ring.
  - rewrite S, S' by auto. ring.
Qed.
Ltac vl := intros [[] []]; intros; (split; [|split]); [intros u v E i Hi|intros u v i Hi|intros c u i Hi].
Ltac vl4 := intros [[] []]; intros; (split; [intros u v E i Hi; cases4 i Hi; cbn; rewrite ?(E 0%nat), ?(E 1%nat), ?(E 2%nat), ?(E 3%nat) by lia; ring|split; [intros u v i Hi; cases4 i Hi; unfold vadd; cbn; ring|intros c u i Hi; cases4 i Hi; unfold vscale; cbn; ring]]).
Lemma vlin_qmul_l : forall m b, vlin 4 4 (fun a => qmul m a b). Proof. vl4. Qed.
Lemma vlin_qmul_r : forall m a, vlin 4 4 (fun b => qmul m a b). Proof. vl4. Qed.
Lemma vlin_qmul43_l : forall m b, vlin 4 4 (fun a => qmul43 m a b). Proof. vl4. Qed.
Lemma vlin_qmul43_r : forall m a, vlin 3 4 (fun b => qmul43 m a b). Proof. vl4. Qed.
Lemma vlin_qconj : forall m, vlin 4 4 (qconj m). Proof. vl4. Qed.
Lemma vlin_qimag : forall m, vlin 4 3 (qimag m).
Proof. intros m; (split; [intros u v E i Hi; apply (E (iI m + i)%nat); unfold iI; destruct (real_first m); lia|split; [intros u v i Hi; reflexivity|intros c u i Hi; reflexivity]]). Qed.

(** ** unary operations *)
Lemma lin_pt : forall r c r' c' f, (forall A B, meq r c A B -> meq r' c' (f A) (f B)) -> (forall A B i k, (i < r')%nat -> (k < c')%nat -> f (madd A B) i k = f A i k + f B i k) ->
  (forall a A i k, (i < r')%nat -> (k < c')%nat -> f (mscale a A) i k = a * f A i k) -> linear_map r c r' c' f.
Proof. intros r c r' c' f H1 H2 H3. split; [auto|split]; intros; intros i k Hi Hk; [apply H2|apply H3]; auto. Qed.
Lemma lin_comp : forall r c r' c' r'' c'' f g, linear_map r c r' c' f -> linear_map r' c' r'' c'' g -> linear_map r c r'' c'' (fun T => g (f T)).
Proof.
  intros r c r' c' r'' c'' f g (E & A & S) (E' & A' & S'). split; [auto|split]; intros.
  - intros i k Hi Hk. rewrite (E' _ _ (A A0 B) i k) by auto. apply A'; auto.
  - intros i k Hi Hk. rewrite (E' _ _ (S a A0) i k) by auto. apply S'; auto.
Qed.
Lemma lin_mul_l : forall r n c B, linear_map r n r c (fun T => mmul n T B).
Proof.
  intros. apply lin_pt.
  - intros A A' H i k Hi Hk. apply ksum_ext. intros x Hx. rewrite (H i x) by auto. reflexivity.
  - intros A A' i k _ _. exact (mmul_add_l n A A' B i k).
  - intros a A i k _ _. exact (mmul_scale_l n a A B i k).
Qed.
Lemma lin_mul_r : forall r n c A, linear_map n c r c (fun T => mmul n A T).
Proof.
  intros. apply lin_pt.
  - intros B B' H i k Hi Hk. apply ksum_ext. intros x Hx. rewrite (H x k) by auto. reflexivity.
  - intros B B' i k _ _. exact (mmul_add_r n A B B' i k).
  - intros a B i k _ _. exact (mmul_scale_r n a A B i k).
Qed.
Lemma lin_scale : forall r c a, linear_map r c r c (fun T i k => T i k * a).
Proof. intros. apply lin_pt; [intros A B H i k Hi Hk; rewrite (H i k) by auto; auto| |]; intros; [unfold madd|unfold mscale]; cbn; ring. Qed.
Lemma lin_neg : forall r c, linear_map r c r c (fun T i k => - T i k).
Proof. intros. apply lin_pt; [intros A B H i k Hi Hk; rewrite (H i k) by auto; auto| |]; intros; [unfold madd|unfold mscale]; cbn; ring. Qed.
Lemma un_lin : forall X o r c A, un_wf o r c -> linear_map r c (un_rows o r c) (un_cols o r c) (un_diff X o r A).
Proof.
  intros X o r c A W. destruct o as [| |a| | |m|m|m]; cbn [un_rows un_cols un_diff] in *.
  - apply lin_pt; [intros U V H i k Hi Hk; apply H; auto|intros; reflexivity|intros; reflexivity].
  - apply lin_neg.
  - apply lin_scale.
  - apply lin_id.
  - cbn in W. subst c. apply (lin_comp r r r r r r (fun T => mmul r (mmul r (minv X r A) T) (minv X r A)) (fun T i k => - T i k)); [|apply lin_neg].
    apply (lin_comp r r r r r r (fun T => mmul r (minv X r A) T) (fun T => mmul r T (minv X r A))); [apply lin_mul_r|apply lin_mul_l].
  - destruct W as (-> & ->). pose proof (vlin_comp 4 4 4 _ _ (vlin_qmul_l m (qconj m (cv A))) (vlin_qmul_r m (qconj m (cv A)))) as L. cbn beta in L. apply lin_col in L.
    destruct L as (E & P & S). apply lin_pt.
    + intros U V H i k Hi Hk. specialize (E U V H i k Hi Hk). unfold col in E. cbn in E |- *. rewrite E. auto.
    + intros U V i k Hi Hk. specialize (P U V i k Hi Hk). unfold col, madd in P. cbn in P |- *. unfold Rdiv. change (cv (madd U V)) with (cv (fun i j => U i j + V i j)). rewrite P. ring.
    + intros a U i k Hi Hk. specialize (S a U i k Hi Hk). unfold col, mscale in S. cbn in S |- *. unfold Rdiv. change (cv (mscale a U)) with (cv (fun i j => a * U i j)). rewrite S. ring.
  - destruct W as (-> & ->). apply lin_col, vlin_qconj.
  - destruct W as (-> & ->). apply lin_col, vlin_qimag.
Qed.
(* conj(q) v conj(q) = 2 (q.v) conj(q) - |q|^2 conj(v) *)
Lemma conj_sandwich : forall m q v i, (i < 4)%nat -> qmul m (qconj m q) (qmul m v (qconj m q)) i = 2 * vdot 4 q v * qconj m q i - vdot 4 q q * qconj m v i.
Proof. intros [[] []] q v i Hi; cases4 i Hi; cbn; ring. Qed.
Lemma dot_conj : forall m q, vdot 4 (qconj m q) (qconj m q) = vdot 4 q q.
Proof. intros [[] []] q; cbn; ring. Qed.
Lemma tan_qinvert : forall m a a', vtan 4 a a' -> vdot 4 (a 0) (a 0) <> 0 ->
  vtan 4 (fun h => qinvert m (a h)) (fun i => - qmul m (qconj m (a 0)) (qmul m a' (qconj m (a 0))) i / (vdot 4 (qconj m (a 0)) (qconj m (a 0)) * vdot 4 (qconj m (a 0)) (qconj m (a 0)))).
Proof.
  intros m a a' Ha N i Hi. unfold qinvert. apply (der_ext (fun h => qconj m (a h) i * / vdot 4 (a h) (a h))); [intros h; rewrite dot_conj; reflexivity|].
  assert (D : derivable_pt_lim (fun h => vdot 4 (a h) (a h)) 0 (2 * vdot 4 (a 0) a')) by (unfold vdot; cbn [ksum kadd k0 kmul RRing]; der_all; cbn; ring).
  eapply der_eq; [|apply (der_mul (fun h => qconj m (a h) i) (fun h => / vdot 4 (a h) (a h))); [apply (tan_qconj m a a' Ha i Hi)|apply (der_inv (fun h => vdot 4 (a h) (a h)) 0 _ D N)]].
  cbn beta. rewrite conj_sandwich, dot_conj by auto. field. auto.
Qed.
Lemma un_tan : forall X kd o s r c f F T, qkin_ok X -> un_wf o r c -> (forall d j, (j < dv_dim d)%nat -> mtan r c (fun h => f (pert X kd s d j h)) (T d j)) -> un_dom X kd o s r f ->
  (forall d j, pert X kd s d j 0 = s) -> F = f s ->
  forall d j, (j < dv_dim d)%nat -> mtan (un_rows o r c) (un_cols o r c) (fun h => un_val X o r (f (pert X kd s d j h))) (un_diff X o r F (T d j)).
Proof.
  intros X kd o s r c f F T K W HT HD P0 EF d j Hj. pose proof (HT d j Hj) as H. pose proof (P0 d j) as E0. destruct o as [| |a| | |m|m|m]; cbn [un_rows un_cols un_val un_diff un_wf un_dom] in *.
  - intros i k Hi Hk. apply (H k i); auto.
  - intros i k Hi Hk. apply (der_opp (fun h => f (pert X kd s d j h) i k)). exact (H i k Hi Hk).
  - intros i k Hi Hk. apply (der_scal_r (fun h => f (pert X kd s d j h) i k)). exact (H i k Hi Hk).
  - exact H.
  - subst c. specialize (HD d j Hj). intros i k Hi Hk. assert (HI : near (fun h => inverse r (f (pert X kd s d j h)) (minv X r (f (pert X kd s d j h))))) by (eapply near_impl; [|exact HD]; intros h Hh; apply (minv_inv X K); auto).
    pose proof (der_inverse r _ (fun h => minv X r (f (pert X kd s d j h))) (T d j) HI H i k Hi Hk) as D. cbn beta in D. rewrite E0 in D. rewrite EF. eapply der_eq; [|exact D]. apply f_equal. unfold mmul.
    rewrite (ksum_swap r r). apply ksum_ext. intros x Hx. exact (ksum_mul_r r (minv X r (f s) x k) (fun y => minv X r (f s) i y * T d j y x)).
  - destruct W as (-> & ->). apply tan_col. apply tan_col in H. pose proof (tan_qinvert m _ _ H) as Q. cbn beta in Q. rewrite E0 in Q. rewrite EF. apply (Q HD).
  - destruct W as (-> & ->). apply tan_col. apply tan_col in H. exact (tan_qconj m _ _ H).
  - destruct W as (-> & ->). apply tan_col. apply tan_col in H. exact (tan_qimag m _ _ H).
Qed.

(** ** binary operations *)
Lemma lin_cross_l : forall ca cb B, (ca = 1 \/ cb = 1)%nat -> linear_map 3 ca 3 (if (ca =? 1)%nat then cb else ca) (fun T => crossM ca cb T B).
Proof.
  intros ca cb B W. apply lin_pt.
  - intros T U H i k Hi Hk. unfold crossM. destruct (Nat.eqb_spec ca 1) as [E|E]; cases3 i Hi; unfold cross3, cv; cbn; rewrite ?(H 0%nat), ?(H 1%nat), ?(H 2%nat) by lia; ring.
  - intros T U i k Hi Hk. unfold crossM, madd. destruct (ca =? 1)%nat; cases3 i Hi; unfold cross3, cv; cbn; ring.
  - intros a T i k Hi Hk. unfold crossM, mscale. destruct (ca =? 1)%nat; cases3 i Hi; unfold cross3, cv; cbn; ring.
Qed.
Lemma lin_cross_r : forall ca cb A, (ca = 1 \/ cb = 1)%nat -> linear_map 3 cb 3 (if (ca =? 1)%nat then cb else ca) (fun T => crossM ca cb A T).
Proof.
  intros ca cb A W. apply lin_pt.
  - intros T U H i k Hi Hk. unfold crossM. destruct (Nat.eqb_spec ca 1) as [E|E]; cases3 i Hi; unfold cross3, cv; cbn; rewrite ?(H 0%nat), ?(H 1%nat), ?(H 2%nat) by lia; ring.
  - intros T U i k Hi Hk. unfold crossM, madd. destruct (ca =? 1)%nat; cases3 i Hi; unfold cross3, cv; cbn; ring.
  - intros a T i k Hi Hk. unfold crossM, mscale. destruct (ca =? 1)%nat; cases3 i Hi; unfold cross3, cv; cbn; ring.
Qed.
Lemma bin_lin_l : forall o ra ca rb cb A B, bin_wf o ra ca rb cb -> linear_map ra ca (bin_rows o ra rb) (bin_cols o ca cb) (bin_dl o ca cb A B).
Proof.
  intros o ra ca rb cb A B W. destruct o as [| | | |m|m]; cbn [bin_rows bin_cols bin_dl bin_wf] in *.
  - apply lin_mul_l.
  - apply lin_id.
  - apply lin_id.
  - destruct W as (-> & -> & W). apply lin_cross_l. auto.
  - destruct W as (-> & -> & -> & ->). apply (lin_col 4 4 (fun v => qmul m v (cv B))). apply vlin_qmul_l.
  - destruct W as (-> & -> & -> & ->). apply (lin_col 4 3 (fun v => qimag m (vadd (qmul m (qmul43 m (cv A) (cv B)) (qconj m v)) (qmul m (qmul43 m v (cv B)) (qconj m (cv A)))))).
    apply (vlin_comp 4 4 3 (fun v => vadd (qmul m (qmul43 m (cv A) (cv B)) (qconj m v)) (qmul m (qmul43 m v (cv B)) (qconj m (cv A)))) (qimag m)); [|apply vlin_qimag]. apply vlin_add.
    + apply (vlin_comp 4 4 4 (qconj m) (fun v => qmul m (qmul43 m (cv A) (cv B)) v)); [apply vlin_qconj|apply vlin_qmul_r].
    + apply (vlin_comp 4 4 4 (fun v => qmul43 m v (cv B)) (fun v => qmul m v (qconj m (cv A)))); [apply vlin_qmul43_l|apply vlin_qmul_l].
Qed.
Lemma bin_lin_r : forall o ra ca rb cb A B, bin_wf o ra ca rb cb -> linear_map rb cb (bin_rows o ra rb) (bin_cols o ca cb) (bin_dr o ca cb A B).
Proof.
  intros o ra ca rb cb A B W. destruct o as [| | | |m|m]; cbn [bin_rows bin_cols bin_dr bin_wf] in *.
  - subst rb. apply lin_mul_r.
  - destruct W as (-> & ->). apply lin_id.
  - destruct W as (-> & ->). apply lin_neg.
  - destruct W as (-> & -> & W). apply lin_cross_r. auto.
  - destruct W as (-> & -> & -> & ->). apply (lin_col 4 4 (fun v => qmul m (cv A) v)). apply vlin_qmul_r.
  - destruct W as (-> & -> & -> & ->). apply (lin_col 3 3 (fun v => qimag m (qmul m (qmul43 m (cv A) v) (qconj m (cv A))))).
    apply (vlin_comp 3 4 3 (fun v => qmul m (qmul43 m (cv A) v) (qconj m (cv A))) (qimag m)); [|apply vlin_qimag].
    apply (vlin_comp 3 4 4 (fun v => qmul43 m (cv A) v) (fun v => qmul m v (qconj m (cv A)))); [apply vlin_qmul43_r|apply vlin_qmul_l].
Qed.
Lemma bin_tan : forall o ra ca rb cb F G T U, bin_wf o ra ca rb cb -> mtan ra ca F T -> mtan rb cb G U ->
  mtan (bin_rows o ra rb) (bin_cols o ca cb) (fun h => bin_val o ca cb (F h) (G h)) (madd (bin_dl o ca cb (F 0) (G 0) T) (bin_dr o ca cb (F 0) (G 0) U)).
Proof.
  intros o ra ca rb cb F G T U W HF HG. destruct o as [| | | |m|m]; cbn [bin_rows bin_cols bin_val bin_dl bin_dr bin_wf] in *.
  - subst rb. apply tan_mul; auto.
  - destruct W as (-> & ->). intros i k Hi Hk. unfold madd. cbn. der_all. reflexivity.
  - destruct W as (-> & ->). intros i k Hi Hk. unfold madd, msub. cbn. der_all. ring.
  - destruct W as (-> & -> & W). intros i k Hi Hk. unfold crossM, madd. destruct (Nat.eqb_spec ca 1) as [E|E]; (cases3 i Hi; unfold cross3, cv; cbn; der_all; cbn; ring).
  - destruct W as (-> & -> & -> & ->). apply tan_col in HF. apply tan_col in HG. apply tan_col. exact (tan_qmul m _ _ _ _ HF HG).
  - destruct W as (-> & -> & -> & ->). apply tan_col in HF. apply tan_col in HG. apply tan_col.
    pose proof (tan_qimag m _ _ (tan_qmul m _ _ _ _ (tan_qmul43 m _ _ _ _ HF HG) (tan_qconj m _ _ HF))) as H. cbn beta in H. eapply tan_eq; [exact H|]. clear. intros i Hi. unfold cv, col, madd.
    generalize (fun x => F 0 x 0%nat) (fun x => G 0 x 0%nat) (fun x => T x 0%nat) (fun x => U x 0%nat). intros a b t u. cbn [cv]. destruct m as [[] []]; cases3 i Hi; cbn; ring.
Qed.

(** ** exp, log and the update of unit quaternions *)
Lemma tan_exp : forall X m v v', qkin_ok X -> vtan 3 v v' -> vtan 4 (fun h => qexpM X m (v h)) (mvmul 3 (dexpM X m (v 0)) v').
Proof.
  intros X m v v' K H. eapply tan_eq; [exact (tan_from_last m _ _ (exp_tan X K v v' H))|]. intros i Hi. unfold dexpM, mvmul. destruct m as [[] t]; cbn [from_last real_first]; [destruct i|]; reflexivity.
Qed.
Lemma tan_log : forall X m q q', qkin_ok X -> vtan 4 q q' -> qlogd X (to_last m (q 0)) -> vtan 3 (fun h => qlogM X m (q h)) (mvmul 4 (dlogM X m (q 0)) q').
Proof.
  intros X m q q' K H D. eapply tan_eq; [exact (log_tan X K _ _ (tan_to_last m _ _ H) D)|]. intros i Hi. unfold dlogM, mvmul. destruct m as [[] t]; cbn; ring.
Qed.
