(** * The text of an expression: proofs *)
From Coq Require Import String Ascii Arith Lia List Bool Reals.
From Verif Require Import Lib_Ring Lib_Real Lib_Res DesignVar_Base Expr_Base Scalar_Model Text_Model Text_Spec.
Import ListNotations.
Local Open Scope string_scope.

Lemma node_rect' : forall P : node -> Prop, P NNull -> (forall s, P (NRaw s)) -> (forall nm args v, Forall P args -> P (NNode nm args v)) -> forall n, P n.
Proof.
  intros P H0 H1 H2. fix F 1. intros [|s|nm args v]; [exact H0|apply H1|]. apply H2. induction args as [|a args IH]; constructor; [apply F|exact IH].
Qed.
Lemma app_assoc_s : forall a b c : string, (a ++ b) ++ c = a ++ (b ++ c).
Proof. induction a; intros; cbn; [auto|]. now rewrite IHa. Qed.
Lemma app_nil_s : forall a : string, a ++ "" = a.
Proof. induction a; cbn; [auto|]. now rewrite IHa. Qed.
Lemma visitArg_nth : forall args n i text, (i < n)%nat -> visitArg args n i text = nth i args (fun t => Ok t) text.
Proof. intros args n. induction n; intros i text H; [lia|]. cbn [visitArg]. destruct (Nat.eqb n i) eqn:E; [apply Nat.eqb_eq in E; now subst|]. apply Nat.eqb_neq in E. apply IHn. lia. Qed.
Lemma accept_nth : forall args i text, (i < length args)%nat -> accept args i text = nth i args (fun t => Ok t) text.
Proof. intros. unfold accept. rewrite (proj2 (Nat.leb_gt _ _) H). now apply visitArg_nth. Qed.
Lemma concat_cons : forall a l, String.concat ", " (a :: l) = match l with [] => a | _ => a ++ ", " ++ String.concat ", " l end.
Proof. intros a [|b l]; reflexivity. Qed.
Lemma argLoop_concat : forall suf pre text, Forall (fun n => forall t, visit n t = Ok (t ++ render n)) (pre ++ suf) ->
  argLoop (map visit (pre ++ suf)) (length suf) (length pre) text = Ok (text ++ String.concat ", " (map render suf)).
Proof.
  induction suf as [|a suf IH]; intros pre text F; cbn [length argLoop]; [cbn; now rewrite app_nil_s|].
  assert (L : length (map visit (pre ++ a :: suf)) = (length pre + S (length suf))%nat) by (rewrite map_length, app_length; reflexivity).
  rewrite accept_nth by lia. rewrite (nth_indep _ _ (visit NNull)) by lia. rewrite map_nth, app_nth2, Nat.sub_diag by lia. cbn [nth].
  pose proof F as F'. apply Forall_app in F'. destruct F' as [_ F']. apply Forall_cons_iff in F'. destruct F' as [Ha _]. rewrite Ha. cbn [bind].
  specialize (IH (pre ++ [a])%list). rewrite <- app_assoc in IH. cbn [app] in IH. rewrite app_length in IH. cbn [length] in IH. rewrite Nat.add_1_r in IH.
  rewrite (IH _ F). f_equal. cbn [map]. rewrite concat_cons, L. destruct suf as [|b suf].
  - rewrite (proj2 (Nat.ltb_ge _ _)) by (cbn; lia). cbn. now rewrite app_nil_s.
  - rewrite (proj2 (Nat.ltb_lt _ _)) by (cbn; lia). cbn [map]. now rewrite !app_assoc_s.
Qed.
Lemma fold_forall : forall (P : node -> Prop) l, fold_right (fun a Q => P a /\ Q) True l <-> Forall P l.
Proof. intros P l. induction l; cbn; [split; auto|]. rewrite Forall_cons_iff, IHl. tauto. Qed.
Lemma visit_render : forall n, evaluates n -> forall text, visit n text = Ok (text ++ render n).
Proof.
  induction n using node_rect'; intros E text; cbn [visit render]; auto.
  cbn [evaluates] in E. destruct E as ((x & ->) & E). apply fold_forall in E. unfold visitV. rewrite map_length.
  assert (F : Forall (fun n => forall t, visit n t = Ok (t ++ render n)) args).
  { rewrite Forall_forall in *. intros a Ha. apply H; auto. }
  destruct args as [|a args]; [cbn; f_equal; now rewrite !app_assoc_s|].
  cbn [length Nat.ltb Nat.leb]. pose proof (argLoop_concat (a :: args) [] ((text ++ nm) ++ "(") F) as K. cbn [app length] in K. rewrite K. cbn [bind value_text].
  f_equal. now rewrite !app_assoc_s.
Qed.
Lemma text_of_tree : forall n, evaluates n -> getText n = Ok (render n).
Proof. intros n E. unfold getText. now rewrite visit_render. Qed.
(* evaluation problems at the root *)
Lemma text_fails : forall name args v, Forall evaluates args -> (forall x : string, v <> Ok x) -> getText (NNode name args v) = match v with Ok _ => UB | Throw => Throw | UB => UB end.
Proof.
  intros name args v E N. unfold getText. cbn [visit]. unfold visitV. rewrite map_length.
  assert (F : Forall (fun n => forall t, visit n t = Ok (t ++ render n)) args) by (rewrite Forall_forall in *; intros a Ha; apply visit_render; auto).
  destruct args as [|a args].
  - cbn. destruct v as [w| |]; auto; exfalso; exact (N w eq_refl).
  - cbn [length Nat.ltb Nat.leb]. pose proof (argLoop_concat (a :: args) [] (("" ++ name) ++ "(") F) as K. cbn [app length] in K. rewrite K. cbn [bind]. destruct v as [w| |]; auto; exfalso; exact (N w eq_refl).
Qed.

(** reading the text back *)
Definition stops (cs : list ascii) (r : string) : Prop := match r with EmptyString => True | String c _ => In c cs end.
Lemma split_at : forall cs a b ra rb, free_of cs a -> free_of cs b -> stops cs ra -> stops cs rb -> a ++ ra = b ++ rb -> a = b /\ ra = rb.
Proof.
  intros cs a. induction a as [|c a IH]; intros [|d b] ra rb Fa Fb Sa Sb E; cbn in *; auto.
  - subst ra. cbn in Sa. tauto.
  - subst rb. cbn in Sb. tauto.
  - injection E as -> E. destruct (IH b ra rb) as [-> ->]; tauto.
Qed.
Lemma stops_mono : forall cs cs' r, (forall c, In c cs -> In c cs') -> stops cs r -> stops cs' r.
Proof. intros cs cs' [|c r] H; cbn; auto. Qed.
Lemma vn : forall c, In c value_chars -> In c name_chars.
Proof. intros c. cbn. tauto. Qed.
Definition rest (l : list node) (r : string) : string := match l with [] => ")" ++ r | _ => ", " ++ String.concat ", " (map render l) ++ ")" ++ r end.
Lemma rest_cons : forall a l r, String.concat ", " (map render (a :: l)) ++ ")" ++ r = render a ++ rest l r.
Proof. intros a l r. cbn [map]. rewrite concat_cons. destruct l; cbn [map rest]; [reflexivity|]. now rewrite !app_assoc_s. Qed.
Lemma rest_stops : forall l r, stops value_chars (rest l r).
Proof. intros [|a l] r; cbn; auto. Qed.
Lemma read_back : forall n, legible n -> forall n' r r', legible n' -> stops value_chars r -> stops value_chars r' -> render n ++ r = render n' ++ r' -> n = n' /\ r = r'.
Proof.
  assert (NUL : free_of name_chars "<>") by (cbn; repeat split; intros K; repeat (destruct K as [K|K]; [discriminate|]); exact K).
  assert (HD : forall nm args v r, exists h t, render (NNode nm args v) ++ r = nm ++ String h t /\ (h = "("%char /\ args <> [] \/ h = "="%char /\ args = []) /\
     String h t = match args with [] => "=" ++ value_text v ++ r | _ => "(" ++ String.concat ", " (map render args) ++ ")" ++ "=" ++ value_text v ++ r end).
  { intros nm args v r. destruct args as [|a args].
    - exists "="%char, (value_text v ++ r). cbn [render]. split; [now rewrite !app_assoc_s|]. split; [right; auto|]. reflexivity.
    - exists "("%char, (String.concat ", " (map render (a :: args)) ++ ")" ++ "=" ++ value_text v ++ r). split; [cbn [render]; now rewrite !app_assoc_s|]. split; [left; split; auto; discriminate|]. reflexivity. }
  assert (NH : forall h t args, h = "("%char /\ args <> @nil node \/ h = "="%char /\ args = [] -> stops name_chars (String h t) /\ ~ stops value_chars (String h t)).
  { intros h t args [[-> _]|[-> _]]; split; cbn; auto; intros [K|[K|[]]]; discriminate. }
  assert (BARE : forall s s' r r', free_of name_chars s -> free_of name_chars s' -> stops value_chars r -> stops value_chars r' -> s ++ r = s' ++ r' -> s = s' /\ r = r').
  { intros s s' r r' A B C D E. exact (split_at name_chars s s' r r' A B (stops_mono _ _ _ vn C) (stops_mono _ _ _ vn D) E). }
  assert (MIX : forall s nm args v r r', free_of name_chars s -> free_of name_chars nm -> stops value_chars r -> s ++ r = render (NNode nm args v) ++ r' -> False).
  { intros s nm args v r r' Fs Fn Sr E. destruct (HD nm args v r') as (h & t & H1 & H2 & _). rewrite H1 in E. destruct (NH h t args H2) as [A B].
    destruct (split_at _ _ _ _ _ Fs Fn (stops_mono _ _ _ vn Sr) A E) as [_ ->]. tauto. }
  induction n as [|s|nm args v IH] using node_rect'; intros L n' r r' L' Sr Sr' E.
  - destruct n' as [|s'|nm' args' v']; cbn [legible] in L'.
    + split; auto. cbn in E. now injection E.
    + cbn [render] in E. destruct L' as [F N]. destruct (BARE _ _ _ _ NUL F Sr Sr' E) as [<- _]. now destruct N.
    + cbn [render] in E. exfalso. destruct L' as [F _]. exact (MIX "<>" nm' args' v' r r' NUL F Sr E).
  - cbn [legible] in L. destruct L as [F N]. destruct n' as [|s'|nm' args' v']; cbn [legible] in L'.
    + cbn [render] in E. destruct (BARE s "<>" _ _ F NUL Sr Sr' E) as [-> _]. now destruct N.
    + cbn [render] in E. destruct L' as [F' _]. destruct (BARE _ _ _ _ F F' Sr Sr' E) as [<- <-]. auto.
    + exfalso. cbn [render] in E. destruct L' as [F' _]. exact (MIX s nm' args' v' r r' F F' Sr E).
  - cbn [legible] in L. destruct L as (F & (x & -> & Fx) & La). apply fold_forall in La. destruct n' as [|s'|nm' args' v']; cbn [legible] in L'.
    + exfalso. symmetry in E. exact (MIX "<>" nm args (Ok x) r' r NUL F Sr' E).
    + exfalso. symmetry in E. destruct L' as [F' _]. exact (MIX s' nm args (Ok x) r' r F' F Sr' E).
    + destruct L' as (F' & (x' & -> & Fx') & La'). apply fold_forall in La'.
      destruct (HD nm args (Ok x) r) as (h & t & H1 & H2 & H3). destruct (HD nm' args' (Ok x') r') as (h' & t' & H1' & H2' & H3'). rewrite H1, H1' in E.
      destruct (split_at _ _ _ _ _ F F' (proj1 (NH h t _ H2)) (proj1 (NH h' t' _ H2')) E) as [<- E2]. rewrite H3, H3' in E2. clear H1 H1' H3 H3' E.
      assert (K : args = args' /\ x = x' /\ r = r'); [|destruct K as (-> & -> & ->); auto].
      clear H2 H2'. cbn [value_text] in E2.
      assert (TL : forall l l' q q', Forall legible l -> Forall legible l' -> Forall (fun a => legible a -> forall n' r r', legible n' -> stops value_chars r -> stops value_chars r' -> render a ++ r = render n' ++ r' -> a = n' /\ r = r') l ->
         rest l q = rest l' q' -> l = l' /\ q = q').
      { induction l as [|a l IHl]; intros [|a' l'] q q' A A' HI R.
        - split; auto. cbn in R. now injection R.
        - cbn in R. discriminate.
        - cbn in R. discriminate.
        - assert (R' : String.concat ", " (map render (a :: l)) ++ ")" ++ q = String.concat ", " (map render (a' :: l')) ++ ")" ++ q').
          { unfold rest in R. apply (f_equal (fun s => match s with String _ (String _ y) => y | _ => "" end)) in R. exact R. }
          rewrite !rest_cons in R'. apply Forall_cons_iff in A. apply Forall_cons_iff in A'. apply Forall_cons_iff in HI. destruct A as [A1 A2], A' as [A1' A2'], HI as [HI1 HI2].
          destruct (HI1 A1 a' _ _ A1' (rest_stops _ _) (rest_stops _ _) R') as [<- R2]. destruct (IHl l' q q' A2 A2' HI2 R2) as [<- <-]. auto. }
      assert (VV : x ++ r = x' ++ r' -> x = x' /\ r = r') by (intros EE; exact (split_at value_chars x x' r r' Fx Fx' Sr Sr' EE)).
      destruct args as [|a args], args' as [|a' args'].
      * cbn in E2. injection E2 as E2. destruct (VV E2). auto.
      * cbn in E2. discriminate.
      * cbn in E2. discriminate.
      * assert (R' : rest (a :: args) ("=" ++ x ++ r) = rest (a' :: args') ("=" ++ x' ++ r')).
        { unfold rest. f_equal. apply (f_equal (fun s => match s with String _ y => y | _ => "" end)) in E2. exact E2. }
        destruct (TL _ _ _ _ La La' IH R') as [<- Q]. cbn in Q. injection Q as Q. destruct (VV Q) as [<- <-]. auto.
Qed.
Lemma legible_evaluates : forall n, legible n -> evaluates n.
Proof.
  induction n using node_rect'; cbn; auto. intros (_ & (x & -> & _) & L). split; [eauto|]. apply fold_forall in L. apply fold_forall. rewrite Forall_forall in *. auto.
Qed.
Lemma text_injective : forall n n' t, legible n -> legible n' -> getText n = Ok t -> getText n' = Ok t -> n = n'.
Proof.
  intros n n' t L L' H H'. rewrite text_of_tree in H, H' by auto using legible_evaluates. injection H as H. injection H' as H'.
  eapply (read_back n L n' "" ""); cbn; auto. now rewrite !app_nil_s, H, H'.
Qed.
