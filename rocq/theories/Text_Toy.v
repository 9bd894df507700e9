(** * The text of an expression: what it does not say, and concrete texts (examples only) *)
From Coq Require Import String Ascii Arith Lia List ZArith Bool Reals Lra.
From Verif Require Import Lib_Ring Lib_Real Lib_Res DesignVar_Base Jacobian_Model Expr_Base Scalar_Model Text_Model Text_Spec Text_Proofs Text_Proofs2.
Import ListNotations.
Local Open Scope string_scope.

Definition x0 : sexpr := SVar (mkDv 0%nat true 0%Z 0%Z 1%nat 1%R).
Definition x1 : sexpr := SVar (mkDv 1%nat true 1%Z 1%Z 1%nat 1%R).
Lemma text_hides : forall p,
  (exists a b s s' t, let e := SAdd a b 1 in let e' := SAdd a b (-1) in
     getText (snode p e s) = Ok t /\ getText (snode p e' s) = Ok t /\ (exists x, sval e s = Ok x /\ sval e' s = Ok x) /\ (exists y y', sval e s' = Ok y /\ sval e' s' = Ok y' /\ y <> y')) /\
  (forall a b s s', getText (snode p (SSqrt a) s) = getText (snode p (SSqrt b) s')) /\
  (forall s x y, exists name, getText (namedConstant p name (x + 1 * y)) = getText (snode p (SAdd (SConst x) (SConst y) 1) s)) /\
  (forall s, getText (snode p (SSqrt (SConst 0)) s) = Ok (p_type p KSqrt) /\ getText (snode p (SNeg (SSqrt (SConst 0))) s) = Throw).
Proof.
  intros p. split; [|split; [|split]].
  - exists x0, x1, (fun _ _ => 0%R), (fun _ _ => 1%R), (render (snode p (SAdd x0 x1 1) (fun _ _ => 0%R))). cbn zeta.
    assert (Z : snode p (SAdd x0 x1 1) (fun _ _ => 0%R) = snode p (SAdd x0 x1 (-1)) (fun _ _ => 0%R)).
    { unfold x0, x1. cbn [snode]. unfold svalue. cbn [sval bind]. do 3 f_equal. lra. }
    split; [apply text_of_tree; eapply snode_evaluates; reflexivity|]. split; [rewrite Z; apply text_of_tree; eapply snode_evaluates; reflexivity|].
    split; [exists 0%R|exists 2%R, 0%R]; cbn; repeat split; try (f_equal; lra); lra.
  - reflexivity.
  - intros s x y. exists ("+(#=" ++ p_double p x ++ ", #=" ++ p_double p y ++ ")").
    rewrite !text_of_tree; [|eapply snode_evaluates; reflexivity|cbn; eauto]. f_equal. cbn. repeat (rewrite app_assoc_s; cbn). reflexivity.
  - intros s. split; [reflexivity|]. unfold getText. cbn [snode visit map]. unfold visitV, svalue. cbn. unfold need_pos. destruct (Rlt_dec 0 0); [lra|reflexivity].
Qed.

(* a printer of zero, positive and negative numbers only *)
Definition sgn (x : R) : string := if Rlt_dec 0 x then "1" else if Rlt_dec x 0 then "-1" else "0".
Definition pT : printer := mkPrinter (fun k => match k with KVar => "N5aslam7backend6ScalarE" | _ => "N5aslam7backend20ScalarExpressionNodeE" end) sgn
  (fun n v => fold_right (fun i s => sgn (v i) ++ " " ++ s) "" (seq 0 n)).
Lemma fo_app : forall cs a b, free_of cs a -> free_of cs b -> free_of cs (a ++ b).
Proof. intros cs a b. induction a; cbn; tauto. Qed.
Ltac chars := repeat split; intros K; cbn in K; repeat (destruct K as [K|K]; [discriminate|]); exact K.
Lemma sgn_free : forall x, free_of value_chars (sgn x).
Proof. intros x. unfold sgn. destruct (Rlt_dec 0 x); [chars|]. destruct (Rlt_dec x 0); chars. Qed.
Lemma pT_legible : legible_printer pT.
Proof.
  split; [|split; [exact sgn_free|]].
  - intros k. destruct k; (split; [chars|discriminate]).
  - intros n x. unfold pT, p_vector. induction (seq 0 n) as [|i l IH]; [exact I|]. cbn [fold_right]. apply fo_app; [apply sgn_free|]. apply fo_app; [chars|exact IH].
Qed.
(* (2 * -3) + 4 *)
Definition eX : sexpr := SAdd (SMul (SConst 2) (SNeg (SConst 3))) (SConst 4) 1.
Lemma eX_case : forall s, arithmetic eX /\ (exists x, sval eX s = Ok x) /\ getText (snode pT eX s) = Ok "+(*(#=1, -(#=1)=-1)=-1, #=1)=-1".
Proof.
  intros s. split; [cbn; auto|]. split; [eexists; reflexivity|]. unfold eX. cbn -[sgn].
  assert (P : forall x, (0 < x)%R -> sgn x = "1") by (intros x H; unfold sgn; destruct (Rlt_dec 0 x); [auto|lra]).
  assert (N : forall x, (x < 0)%R -> sgn x = "-1") by (intros x H; unfold sgn; destruct (Rlt_dec 0 x); [lra|]; destruct (Rlt_dec x 0); [auto|lra]).
  rewrite (P 2%R), (P 3%R), (P 4%R), (N (- (3))%R), (N (2 * - (3))%R), (N (2 * - (3) + 1 * 4)%R) by lra. reflexivity.
Qed.
Definition vX : vexpr := VAdd (VStack (SCons eX (SCons x0 SNil))) (VConst 2 (fun _ => 0%R)).
Lemma vX_case : forall s, exists x, vval vX s = Ok x.
Proof. intros s. eexists. reflexivity. Qed.
Definition nX : node := NNode "NWA" [NNode "N" [] (Ok "3"); NNull; NRaw "T"] (Ok "8").
Lemma nX_case : evaluates nX /\ legible nX /\ getText nX = Ok "NWA(N=3, <>, T)=8".
Proof.
  split; [|split; [|reflexivity]].
  - cbn. repeat split; eauto.
  - unfold nX. cbn [legible fold_right]. split; [chars|]. split; [eexists; split; [reflexivity|chars]|]. split; [split; [chars|]; split; [eexists; split; [reflexivity|chars]|exact I]|]. split; [exact I|]. split; [split; [chars|discriminate]|exact I].
Qed.
