(** * The text of an expression: scalar and vector expressions *)
From Coq Require Import String Ascii Arith Lia List Bool Reals Lra.
From Verif Require Import Lib_Ring Lib_Real Lib_Res DesignVar_Base Expr_Base Scalar_Model Text_Model Text_Spec Text_Proofs.
Import ListNotations.
Local Open Scope string_scope.

Ltac ub H := match type of H with context [bind ?x _] => let E := fresh "E" in destruct x eqn:E; cbn [bind] in H; try discriminate H end.
Lemma snode_evaluates : forall p e s x, sval e s = Ok x -> evaluates (snode p e s).
Proof.
  intros p e. induction e; intros s x H; cbn [snode evaluates fold_right]; try exact I.
  - split; [unfold svalue; rewrite H; cbn; eauto|exact I].
  - split; [unfold svalue; rewrite H; cbn; eauto|]. cbn [sval] in H. ub H. ub H. eauto.
  - split; [unfold svalue; rewrite H; cbn; eauto|]. cbn [sval] in H. ub H. ub H. eauto.
  - split; [unfold svalue; rewrite H; cbn; eauto|]. cbn [sval] in H. ub H. eauto.
  - split; [unfold svalue; rewrite H; cbn; eauto|]. cbn [sval] in H. ub H. ub H. eauto.
Qed.
Lemma snode_legible : forall p e s x, legible_printer p -> sval e s = Ok x -> legible (snode p e s).
Proof.
  intros p e s x (T & D & _). revert s x.
  assert (V : forall e s x, sval e s = Ok x -> exists t, svalue p e s = Ok t /\ free_of value_chars t) by (intros e0 s x H; unfold svalue; rewrite H; cbn; eauto).
  assert (N : forall c, ~ In c name_chars -> free_of name_chars (String c "")) by (cbn; auto).
  assert (C : forall c, In c ["#"; "*"; "/"; "-"; "+"]%char -> free_of name_chars (String c "")).
  { intros c Hc. apply N. cbn in Hc |- *. intuition (subst; discriminate). }
  induction e; intros s x H; cbn [snode legible fold_right]; try exact (T _);
    (split; [apply C; cbn; tauto|]; split; [eapply V; exact H|]); cbn [sval] in H; try exact I.
  - ub H. ub H. eauto.
  - ub H. ub H. eauto.
  - ub H. eauto.
  - ub H. ub H. eauto.
Qed.
Lemma lnodes_all : forall (P : node -> Prop) p, (forall e s x, sval e s = Ok x -> P (snode p e s)) -> forall l s x, lval l s = Ok x -> fold_right (fun a Q => P a /\ Q) True (lnodes p l s).
Proof.
  intros P p HP l. induction l; intros s x H; cbn [lnodes fold_right]; [exact I|]. cbn [lval] in H. ub H. ub H. split; eauto.
Qed.
Lemma vnode_evaluates : forall p v s x, vval v s = Ok x -> evaluates (vnode p v s).
Proof.
  intros p v. induction v; intros sg x H; cbn [vnode evaluates fold_right]; (split; [unfold vvalue; rewrite H; cbn; eauto|]); try exact I; cbn [vval] in H.
  - eapply (lnodes_all evaluates); eauto using snode_evaluates.
  - ub H. ub H. eauto.
Qed.
Lemma vnode_legible : forall p v s x, legible_printer p -> vval v s = Ok x -> legible (vnode p v s).
Proof.
  intros p v s x L. revert s x. destruct L as (T & D & W).
  assert (C : forall c, In c ["#"; "+"; "V"]%char -> free_of name_chars (String c "")).
  { intros c Hc. cbn in Hc |- *. intuition (subst; discriminate). }
  induction v; intros sg x H; cbn [vnode legible fold_right]; (split; [apply C; cbn; tauto|]; split; [unfold vvalue; rewrite H; cbn; eauto|]); try exact I; cbn [vval] in H.
  - eapply (lnodes_all legible); eauto. intros. eapply snode_legible; eauto. repeat split; auto; apply T.
  - ub H. ub H. eauto.
Qed.
(* the text of an expression that can be evaluated *)
Lemma scalar_text : forall p e s x, sval e s = Ok x ->
  exists t, getText (snode p e s) = Ok t /\ t = render (snode p e s) /\ (is_raw (snode p e s) = false -> exists h, t = h ++ "=" ++ p_double p x).
Proof.
  intros p e s x H. eexists. split; [apply text_of_tree; eapply snode_evaluates; eauto|]. split; [reflexivity|].
  assert (K : forall nm args, exists h, render (NNode nm args (svalue p e s)) = h ++ "=" ++ p_double p x).
  { intros nm args. cbn [render]. unfold svalue. rewrite H. cbn [bind value_text]. rewrite <- app_assoc_s. eauto. }
  destruct e; cbn [snode is_raw]; try discriminate; intros _; apply K.
Qed.
Lemma vector_text : forall p v s x, vval v s = Ok x -> exists t h, getText (vnode p v s) = Ok t /\ t = render (vnode p v s) /\ t = h ++ "=" ++ p_vector p (vsize v) x.
Proof.
  intros p v s x H. assert (K : forall nm args, exists h, render (NNode nm args (vvalue p v s)) = h ++ "=" ++ p_vector p (vsize v) x).
  { intros nm args. cbn [render]. unfold vvalue. rewrite H. cbn [bind value_text]. rewrite <- app_assoc_s. eauto. }
  assert (K' : exists h, render (vnode p v s) = h ++ "=" ++ p_vector p (vsize v) x) by (destruct v; cbn [vnode]; apply K).
  destruct K' as [h K']. exists (render (vnode p v s)), h. split; [apply text_of_tree; eapply vnode_evaluates; eauto|auto].
Qed.
(* what the text determines *)
Lemma scalar_tree : forall p e e' s s' x x' t, legible_printer p -> sval e s = Ok x -> sval e' s' = Ok x' -> getText (snode p e s) = Ok t -> getText (snode p e' s') = Ok t -> snode p e s = snode p e' s'.
Proof. intros p e e' s s' x x' t L H H' T T'. eapply text_injective; eauto using snode_legible. Qed.
Lemma vector_tree : forall p v v' s s' x x' t, legible_printer p -> vval v s = Ok x -> vval v' s' = Ok x' -> getText (vnode p v s) = Ok t -> getText (vnode p v' s') = Ok t -> vnode p v s = vnode p v' s'.
Proof. intros p v v' s s' x x' t L H H' T T'. eapply text_injective; eauto using vnode_legible. Qed.
Lemma tree_same : forall p e e' s s', arithmetic e -> arithmetic e' -> snode p e s = snode p e' s' -> same_but_digits p e e'.
Proof.
  intros p e. induction e; intros e' s s' A A' E; try destruct A as []; destruct e'; cbn [arithmetic] in *; try contradiction; cbn [snode same_but_digits] in *; try discriminate;
    unfold svalue in E; cbn [sval bind] in E.
  - now injection E.
  - injection E as E1 E2 _. split; eauto; [eapply IHe1|eapply IHe2]; try eassumption; tauto.
  - injection E as E1 E2 _. split; eauto; [eapply IHe1|eapply IHe2]; try eassumption; tauto.
  - injection E as E1 _. eapply IHe; eauto.
  - injection E as E1 E2 _. split; [eapply IHe1|eapply IHe2]; try eassumption; tauto.
Qed.
Lemma scalar_same : forall p e e' s s' x x' t, legible_printer p -> arithmetic e -> arithmetic e' -> sval e s = Ok x -> sval e' s' = Ok x' ->
  getText (snode p e s) = Ok t -> getText (snode p e' s') = Ok t -> same_but_digits p e e' /\ p_double p x = p_double p x'.
Proof.
  intros p e e' s s' x x' t L A A' H H' T T'. pose proof (scalar_tree p e e' s s' x x' t L H H' T T') as E. split; [eapply tree_same; eauto|].
  destruct e, e'; cbn [arithmetic] in *; try contradiction; cbn [snode] in E; try discriminate; unfold svalue in E; rewrite ?H, ?H' in E; cbn [bind] in E; injection E; auto.
Qed.
(* the text of an operation from the texts of its operands *)
Lemma text_render : forall p e s x t, sval e s = Ok x -> getText (snode p e s) = Ok t -> t = render (snode p e s).
Proof. intros p e s x t H T. rewrite text_of_tree in T by (eapply snode_evaluates; eauto). now injection T. Qed.
Lemma operations : forall p s a b x y ta tb, sval a s = Ok x -> sval b s = Ok y -> getText (snode p a s) = Ok ta -> getText (snode p b s) = Ok tb ->
  getText (snode p (SMul a b) s) = Ok ("*(" ++ ta ++ ", " ++ tb ++ ")=" ++ p_double p (x * y)%R) /\
  (y <> 0%R -> getText (snode p (SDiv a b) s) = Ok ("/(" ++ ta ++ ", " ++ tb ++ ")=" ++ p_double p (x / y)%R)) /\
  getText (snode p (SNeg a) s) = Ok ("-(" ++ ta ++ ")=" ++ p_double p (- x)%R) /\
  (forall m, getText (snode p (SAdd a b m) s) = Ok ("+(" ++ ta ++ ", " ++ tb ++ ")=" ++ p_double p (x + m * y)%R)) /\
  (forall c, getText (snode p (SConst c) s) = Ok ("#=" ++ p_double p c)).
Proof.
  intros p s a b x y ta tb Ha Hb Ta Tb. rewrite (text_render _ _ _ _ _ Ha Ta), (text_render _ _ _ _ _ Hb Tb).
  assert (B : forall nm e z, snode p e s = NNode nm [snode p a s; snode p b s] (svalue p e s) -> sval e s = Ok z ->
     getText (snode p e s) = Ok (nm ++ "(" ++ render (snode p a s) ++ ", " ++ render (snode p b s) ++ ")=" ++ p_double p z)).
  { intros nm e z E Z. rewrite text_of_tree by (eapply snode_evaluates; eauto). rewrite E. cbn [render map String.concat]. unfold svalue. rewrite Z. cbn [bind value_text]. f_equal. rewrite !app_assoc_s. reflexivity. }
  split; [|split; [|split; [|split]]].
  - apply (B "*"); [reflexivity|]. cbn [sval]. rewrite Ha, Hb. reflexivity.
  - intros Y. apply (B "/"); [reflexivity|]. cbn [sval]. rewrite Ha, Hb. cbn [bind]. unfold fdiv. destruct (Req_EM_T y 0); [contradiction|reflexivity].
  - assert (Z : sval (SNeg a) s = Ok (- x)%R) by (cbn [sval]; now rewrite Ha).
    rewrite text_of_tree by (eapply snode_evaluates; eauto). cbn [snode render map String.concat]. unfold svalue. rewrite Z. cbn [bind value_text]. f_equal. rewrite !app_assoc_s. reflexivity.
  - intros m. apply (B "+"); [reflexivity|]. cbn [sval]. rewrite Ha, Hb. reflexivity.
  - reflexivity.
Qed.
Lemma lnodes_map : forall p l s, lnodes p l s = map (fun a => snode p a s) (components l).
Proof. intros p l s. induction l; cbn; congruence. Qed.
Lemma stacks : forall p s,
  (forall l x ts, l <> SNil -> vval (VStack l) s = Ok x -> Forall2 (fun a t => getText (snode p a s) = Ok t) (components l) ts ->
     getText (vnode p (VStack l) s) = Ok ("#(" ++ String.concat ", " ts ++ ")=" ++ p_vector p (length ts) x)) /\
  (forall a b x y ta tb, vval a s = Ok x -> vval b s = Ok y -> getText (vnode p a s) = Ok ta -> getText (vnode p b s) = Ok tb ->
     getText (vnode p (VAdd a b) s) = Ok ("+(" ++ ta ++ ", " ++ tb ++ ")=" ++ p_vector p (vsize a) (fun i => x i + y i)%R)).
Proof.
  intros p s. split.
  - intros l x ts N H F.
    assert (E : map render (lnodes p l s) = ts /\ length ts = slen l).
    { clear N. cbn [vval] in H. revert x ts H F. induction l as [|a l IH]; intros x ts H F; cbn [components] in F; inversion F; subst; [auto|]. cbn [lval] in H. ub H. ub H. cbn [lnodes map length slen].
      destruct (IH _ _ eq_refl H4) as [<- ->]. rewrite <- (text_render _ _ _ _ _ E H2). auto. }
    destruct E as [E L]. rewrite text_of_tree by (eapply vnode_evaluates; eauto). rewrite L. cbn [vnode render]. rewrite E. unfold vvalue. rewrite H. cbn [bind value_text vsize].
    destruct l as [|a l]; [now destruct N|]. cbn [lnodes]. f_equal. rewrite !app_assoc_s. reflexivity.
  - intros a b x y ta tb Ha Hb Ta Tb. assert (Z : vval (VAdd a b) s = Ok (fun i => x i + y i)%R) by (cbn [vval]; now rewrite Ha, Hb).
    rewrite text_of_tree in Ta, Tb by (eapply vnode_evaluates; eauto). injection Ta as <-. injection Tb as <-.
    rewrite text_of_tree by (eapply vnode_evaluates; eauto). cbn [vnode render map String.concat vsize]. unfold vvalue. rewrite Z. cbn [bind value_text vsize]. f_equal. rewrite !app_assoc_s. reflexivity.
Qed.
