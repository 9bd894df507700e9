(** * Proofs about SimpleOptimizationProblem *)
From Coq Require Import Arith Lia List Bool.
From Verif Require Import Lib_Res SProb_Model SProb_Spec.
Import ListNotations.

Lemma has_iff : forall x l, has x l = true <-> In x l.
Proof. intros x l. unfold has. rewrite existsb_exists. split; [intros (y & H & E); apply Nat.eqb_eq in E; subst; auto|intros H; exists x; split; auto; apply Nat.eqb_refl]. Qed.
Lemma has_not : forall x l, has x l = false <-> ~ In x l.
Proof. intros x l. rewrite <- has_iff. destruct (has x l); split; intros; congruence. Qed.
Definition owned (l : list entry) : list nat := map fst (filter (fun e => match snd e with Owned => true | _ => false end) l).
Lemma owned_app : forall a b, owned (a ++ b) = owned a ++ owned b.
Proof. intros. unfold owned. rewrite filter_app, map_app. reflexivity. Qed.
Lemma release_ok : forall l f, NoDup (owned l) -> (forall x, In x (owned l) -> ~ In x f) -> exists f', release l f = Ok f'.
Proof.
  induction l as [|[p h] r IH]; intros f N D; [exists f; reflexivity|]. destruct h; cbn [release owned filter map snd fst] in *; [|apply IH; auto|apply IH; auto].
  change (map fst (filter _ r)) with (owned r) in *. replace (has p f) with false by (symmetry; apply has_not; apply D; left; auto). inversion N; subst. apply IH; auto.
  intros x Hx [->|H]; [contradiction|]. apply (D x); [right; auto|auto].
Qed.
Lemma release_in : forall l f f', release l f = Ok f' -> forall x, In x f' <-> In x f \/ In x (owned l).
Proof.
  induction l as [|[p h] r IH]; intros f f' H x; cbn [release] in H; [injection H as <-; cbn; tauto|]. destruct h; cbn [owned filter map snd fst]; try (change (map fst (filter _ r)) with (owned r)).
  - destruct (has p f); [discriminate|]. rewrite (IH _ _ H). cbn. tauto.
  - apply IH; auto.
  - apply IH; auto.
Qed.
Lemma distinct_app : forall a b s, distinct (a ++ b) s = distinct b (distinct a s).
Proof. induction a; intros; cbn; auto. Qed.
Lemma added_snoc : forall h o, added_dvs (h ++ [o]) = match o with AddDv _ v => if has v (added_dvs h) then added_dvs h else added_dvs h ++ [v] | _ => added_dvs h end.
Proof. intros h o. unfold added_dvs. rewrite flat_map_app, distinct_app. destruct o; reflexivity. Qed.
Lemma distinct_nodup : forall l s, NoDup s -> NoDup (distinct l s).
Proof.
  induction l as [|x r IH]; intros s N; cbn; auto. apply IH. destruct (existsb (Nat.eqb x) s) eqn:E; auto. apply has_not in E. clear -N E. induction s as [|y s IHs]; cbn; [constructor; [auto|constructor]|].
  inversion N; subst. constructor. { rewrite in_app_iff. cbn. intros [H|[H|[]]]; [auto|]. subst. apply E. left; auto. } apply IHs; auto. intros H. apply E. right; auto.
Qed.
Record INV (bef acc : list sop) (s : sprob) : Prop := {
  i_dvs : map fst (s_dvs s) = added_dvs acc; i_ets : map fst (s_ets s) = added_ets acc; i_nts : map fst (s_nts s) = added_nts (bef ++ acc);
  i_oD : incl (owned (s_dvs s)) (owned_dvs acc); i_oE : owned (s_ets s) = owned_ets acc;
  i_fD : incl (s_freeD s) (owned_dvs bef); i_fE : incl (s_freeE s) (owned_ets bef); i_fN : s_freeN s = [] }.
Lemma step_inv : forall o bef acc s s', INV bef acc s -> sstep o s = Ok s' -> match o with Clear => INV (bef ++ acc ++ [Clear]) [] s' | _ => INV bef (acc ++ [o]) s' end.
Proof.
  intros o bef acc s s' [A B C D E F G N] H. destruct o; cbn [sstep] in H.
  - unfold addDesignVariable in H. destruct (has v _) eqn:Hv; [discriminate|]. rewrite A in Hv. injection H as <-. split; cbn [s_dvs s_ets s_nts s_freeD s_freeE s_freeN]; auto.
    + rewrite map_app, added_snoc, Hv. f_equal. exact A.
    + unfold added_ets in *. rewrite flat_map_app, <- B. cbn. rewrite app_nil_r. reflexivity.
    + unfold added_nts in *. rewrite app_assoc, flat_map_app, <- C. cbn. rewrite app_nil_r. reflexivity.
    + rewrite owned_app. unfold owned_dvs. rewrite flat_map_app. apply incl_app; [apply incl_appl; auto|apply incl_appr]. destruct h; cbn; intros x Hx; auto.
    + unfold owned_ets in *. rewrite flat_map_app, <- E. cbn. rewrite app_nil_r. reflexivity.
  - injection H as <-. split; cbn [s_dvs s_ets s_nts s_freeD s_freeE s_freeN]; auto.
    + rewrite added_snoc. auto.
    + unfold added_ets in *. rewrite map_app, flat_map_app. f_equal. exact B.
    + unfold added_nts in *. rewrite app_assoc, flat_map_app, <- C. cbn. rewrite app_nil_r. reflexivity.
    + unfold owned_dvs. rewrite flat_map_app. cbn. rewrite app_nil_r. auto.
    + rewrite owned_app, E. unfold owned_ets. rewrite flat_map_app. destruct h; reflexivity.
  - injection H as <-. split; cbn [s_dvs s_ets s_nts s_freeD s_freeE s_freeN]; auto.
    + rewrite added_snoc. auto.
    + unfold added_ets in *. rewrite flat_map_app, <- B. cbn. rewrite app_nil_r. reflexivity.
    + unfold added_nts in *. rewrite app_assoc, flat_map_app, map_app. f_equal. exact C.
    + unfold owned_dvs. rewrite flat_map_app. cbn. rewrite app_nil_r. auto.
    + unfold owned_ets in *. rewrite flat_map_app, <- E. cbn. rewrite app_nil_r. reflexivity.
  - unfold clear in H. destruct (release (s_ets s) _) as [fe| |] eqn:RE; cbn [bind] in H; try discriminate. destruct (release (s_dvs s) _) as [fd| |] eqn:RD; cbn [bind] in H; try discriminate. injection H as <-.
    split; cbn [s_dvs s_ets s_nts s_freeD s_freeE s_freeN]; auto; try reflexivity.
    + rewrite C. unfold added_nts. rewrite app_nil_r, !flat_map_app. cbn. rewrite app_nil_r. reflexivity.
    + intros x Hx. destruct Hx.
    + intros x Hx. apply (release_in _ _ _ RD) in Hx. unfold owned_dvs in *. rewrite !flat_map_app, !in_app_iff. destruct Hx as [Hx|Hx]; [left; apply F; auto|right; left; apply D; auto].
    + intros x Hx. apply (release_in _ _ _ RE) in Hx. unfold owned_ets in *. rewrite !flat_map_app, !in_app_iff. destruct Hx as [Hx|Hx]; [left; apply G; auto|right; left; rewrite <- E; auto].
Qed.
(* a call that throws is a repeated design variable: nothing is recorded for it *)
Lemma throw_inv : forall o bef acc s, INV bef acc s -> sstep o s = Throw -> match o with Clear => False | _ => INV bef (acc ++ [o]) s end.
Proof.
  intros o bef acc s [A B C D E F G N] H. destruct o; cbn [sstep] in H; try discriminate.
  - unfold addDesignVariable in H. destruct (has v _) eqn:Hv; [|discriminate]. rewrite A in Hv. split; auto.
    + rewrite added_snoc, Hv. auto.
    + unfold added_ets in *. rewrite flat_map_app, <- B. cbn. rewrite app_nil_r. reflexivity.
    + unfold added_nts in *. rewrite app_assoc, flat_map_app, <- C. cbn. rewrite app_nil_r. reflexivity.
    + unfold owned_dvs. rewrite flat_map_app. apply incl_appl. auto.
    + unfold owned_ets in *. rewrite flat_map_app, <- E. cbn. rewrite app_nil_r. reflexivity.
  - unfold clear in H. assert (R : forall l f, release l f <> Throw). { induction l as [|[p h] r IH]; intros f; [discriminate|]. destruct h; cbn; auto. destruct (has p f); [discriminate|auto]. }
    destruct (release (s_ets s) _) eqn:E1; cbn [bind] in H; try discriminate; [|exact (R _ _ E1)]. destruct (release (s_dvs s) _) eqn:E2; cbn [bind] in H; try discriminate. exact (R _ _ E2).
Qed.
Lemma run_inv : forall h bef acc s s', INV bef acc s -> srun h s = Ok s' -> INV (fst (split_clear h bef acc)) (snd (split_clear h bef acc)) s'.
Proof.
  induction h as [|o r IH]; intros bef acc s s' I H; cbn [srun] in H; [injection H as <-; exact I|].
  destruct (sstep o s) as [s1| |] eqn:E; try discriminate.
  - pose proof (step_inv o bef acc s s1 I E) as J. destruct o; cbn [split_clear]; eapply IH; eauto.
  - pose proof (throw_inv o bef acc s I E) as J. destruct o; cbn [split_clear]; try contradiction; eapply IH; eauto.
Qed.
Lemma inv0 : INV [] [] sempty.
Proof. split; auto; intros x []. Qed.
Lemma hist : forall h s, srun h sempty = Ok s -> INV (before h) (recent h) s.
Proof. intros h s H. apply (run_inv h [] [] sempty s inv0 H). Qed.
Lemma split_eq : forall h bef acc, fst (split_clear h bef acc) ++ snd (split_clear h bef acc) = bef ++ acc ++ h.
Proof. induction h as [|o r IH]; intros bef acc; cbn; [rewrite app_nil_r; auto|]. destruct o; rewrite IH, <- ?app_assoc; reflexivity. Qed.
Lemma at_nth : forall l i, at_ l i = match nth_error (map fst l) i with Some x => Ok x | None => UB end.
Proof. unfold at_. induction l as [|e l IH]; intros [|i]; cbn; auto. Qed.

Lemma contents : forall h s, srun h sempty = Ok s ->
  NoDup (added_dvs (recent h)) /\
  (numDesignVariables s = length (added_dvs (recent h)) /\ forall i, designVariable s i = match nth_error (added_dvs (recent h)) i with Some v => Ok v | None => UB end) /\
  (forall v, isDesignVariableInProblem v s = true <-> exists hd, In (AddDv hd v) (recent h)) /\
  (numErrorTerms s = length (added_ets (recent h)) /\ forall i, errorTerm s i = match nth_error (added_ets (recent h)) i with Some t => Ok t | None => UB end) /\
  (numNonSquaredErrorTerms s = length (added_nts h) /\ forall i, nonSquaredErrorTerm s i = match nth_error (added_nts h) i with Some t => Ok t | None => UB end) /\
  numTotalErrorTerms s = length (added_ets (recent h)) + length (added_nts h).
Proof.
  intros h s H. destruct (hist h s H) as [A B C D E F G N]. unfold before, recent in C. rewrite split_eq in C. cbn [app] in C. fold (recent h) in *.
  assert (In_d : forall v, In v (added_dvs (recent h)) <-> exists hd, In (AddDv hd v) (recent h)).
  { intros v. unfold added_dvs. assert (K : forall l s0, In v (distinct l s0) <-> In v l \/ In v s0).
    { induction l as [|x l IH]; intros s0; cbn; [tauto|]. rewrite IH. destruct (existsb (Nat.eqb x) s0) eqn:Ex; [apply has_iff in Ex|]; [|rewrite in_app_iff; cbn]; intuition (subst; auto). }
    rewrite K, in_flat_map. cbn. split; [intros [(o & Ho & Hv)|[]]; destruct o; cbn in Hv; try contradiction; destruct Hv as [<-|[]]; eauto|intros (hd & Hh); left; exists (AddDv hd v); cbn; auto]. }
  split; [apply distinct_nodup; constructor|]. split; [split; [unfold numDesignVariables; rewrite <- A; symmetry; apply map_length|intros i; unfold designVariable; rewrite at_nth, A; reflexivity]|].
  split.
  { intros v. rewrite <- In_d, <- A. unfold isDesignVariableInProblem. rewrite existsb_exists, in_map_iff. split; intros (e & H1 & H2); exists e; [apply Nat.eqb_eq in H2|split; [auto|apply Nat.eqb_eq]]; auto. }
  assert (Ee : numErrorTerms s = length (added_ets (recent h))) by (unfold numErrorTerms; rewrite <- B; symmetry; apply map_length).
  assert (En : numNonSquaredErrorTerms s = length (added_nts h)) by (unfold numNonSquaredErrorTerms; rewrite <- C; symmetry; apply map_length).
  split; [split; [exact Ee|intros i; unfold errorTerm; rewrite at_nth, B; reflexivity]|]. split; [split; [exact En|intros i; unfold nonSquaredErrorTerm; rewrite at_nth, C; reflexivity]|].
  unfold numTotalErrorTerms. rewrite Ee, En. reflexivity.
Qed.
(* no object is deleted twice *)
Lemma nodup_app_l : forall A (a b : list A), NoDup (a ++ b) -> NoDup a /\ NoDup b /\ forall x, In x b -> ~ In x a.
Proof.
  induction a as [|x a IH]; intros b N; cbn in N; [repeat split; auto; constructor|]. inversion N as [|? ? H1 H2]; subst. destruct (IH b H2) as (P & Q & W). rewrite in_app_iff in H1. split; [constructor; tauto|]. split; auto.
  intros y Hy [->|Hz]; [tauto|]. exact (W y Hy Hz).
Qed.
Lemma owned_sub : forall bef acc s, INV bef acc s -> NoDup (owned_dvs acc) -> NoDup (owned (s_dvs s)).
Proof.
  intros bef acc s I _. assert (N : NoDup (map fst (s_dvs s))) by (rewrite (i_dvs _ _ _ I); apply distinct_nodup; constructor).
  revert N. generalize (s_dvs s). induction l as [|[p h] r IH]; intros N; [constructor|]. cbn in N. inversion N; subst. destruct h; cbn; auto. constructor; auto.
  change (map fst (filter _ r)) with (owned r). intros K. apply H1. unfold owned in K. rewrite in_map_iff in K. destruct K as (e & <- & He). apply filter_In in He. apply in_map. tauto.
Qed.
Lemma no_ub : forall h bef acc s, INV bef acc s -> NoDup (owned_dvs (bef ++ acc ++ h)) -> NoDup (owned_ets (bef ++ acc ++ h)) -> exists s', srun h s = Ok s'.
Proof.
  induction h as [|o r IH]; intros bef acc s I ND NE; [exists s; reflexivity|]. cbn [srun].
  assert (Q : o <> Clear -> bef ++ (acc ++ [o]) ++ r = bef ++ acc ++ o :: r) by (intros _; rewrite <- app_assoc; reflexivity).
  destruct (sstep o s) as [s1| |] eqn:E.
  - pose proof (step_inv o bef acc s s1 I E) as J. destruct o; try (eapply IH; [exact J|rewrite Q by discriminate; exact ND|rewrite Q by discriminate; exact NE]).
    assert (Q' : (bef ++ acc ++ [Clear]) ++ [] ++ r = bef ++ acc ++ Clear :: r) by (rewrite <- !app_assoc; reflexivity). apply (IH (bef ++ acc ++ [Clear]) [] s1); auto; rewrite Q'; auto.
  - pose proof (throw_inv o bef acc s I E) as J. destruct o; try contradiction; (eapply IH; [exact J|rewrite Q by discriminate; exact ND|rewrite Q by discriminate; exact NE]).
  - exfalso. destruct o; cbn [sstep] in E; try discriminate.
    + unfold addDesignVariable in E. destruct (has v _); discriminate.
    + unfold owned_dvs, owned_ets in ND, NE. rewrite !flat_map_app in ND, NE. rewrite app_assoc in ND, NE. apply nodup_app_l in ND. apply nodup_app_l in NE.
      destruct ND as (ND & _). destruct NE as (NE & _). apply nodup_app_l in ND. apply nodup_app_l in NE. destruct ND as (_ & ND & DD). destruct NE as (_ & NE & DE).
      unfold clear in E. destruct (release_ok (s_ets s) (s_freeE s)) as (fe & Re).
      { rewrite (i_oE _ _ _ I). exact NE. } { rewrite (i_oE _ _ _ I). intros x Hx Hf. apply (DE x Hx). apply (i_fE _ _ _ I x Hf). }
      rewrite Re in E. cbn [bind] in E. destruct (release_ok (s_dvs s) (s_freeD s)) as (fd & Rd).
      { apply (owned_sub _ _ _ I ND). } { intros x Hx Hf. apply (DD x); [apply (i_oD _ _ _ I x Hx)|apply (i_fD _ _ _ I x Hf)]. }
      rewrite Rd in E. discriminate.
Qed.
Lemma no_double_delete : forall h, NoDup (owned_dvs h) -> NoDup (owned_ets h) -> exists s, srun h sempty = Ok s.
Proof. intros h ND NE. apply (no_ub h [] [] sempty inv0); auto. Qed.
Lemma clear_empties : forall h s, added_nts h = [] -> srun (h ++ [Clear]) sempty = Ok s -> numDesignVariables s = 0 /\ numTotalErrorTerms s = 0.
Proof.
  intros h s N H. destruct (contents _ _ H) as (_ & (A & _) & _ & _ & _ & B).
  assert (R : recent (h ++ [Clear]) = []). { assert (K : forall h acc bef, snd (split_clear (h ++ [Clear]) bef acc) = []) by (clear; induction h as [|o r IH]; intros acc bef; [reflexivity|destruct o; apply IH]). apply K. }
  rewrite R in *. unfold added_nts in *. rewrite flat_map_app, N in B. split; auto.
Qed.
Lemma safe_read : forall uses usesN h s, srun h sempty = Ok s ->
  (forall t, In t (added_ets (recent h)) -> ~ In t (owned_ets (before h)) /\ forall v, In v (uses t) -> ~ In v (owned_dvs (before h))) ->
  (forall t, In t (added_nts h) -> forall v, In v (usesN t) -> ~ In v (owned_dvs (before h))) ->
  (forall v, In v (added_dvs (recent h)) -> ~ In v (owned_dvs (before h))) -> read_all uses usesN s = Ok tt.
Proof.
  intros uses usesN h s H HE HN HD. destruct (hist h s H) as [A B C D E F G N]. unfold before, recent in C. rewrite split_eq in C. cbn [app] in C. fold (recent h) in *. fold (before h) in *. unfold read_all.
  assert (X : forall v, ~ In v (owned_dvs (before h)) -> negb (has v (s_freeD s)) = true). { intros v Hv. apply negb_true_iff, has_not. intros K. apply Hv. apply F; auto. }
  assert (X1 : forallb (fun e => negb (has (fst e) (s_freeE s)) && forallb (fun v => negb (has v (s_freeD s))) (uses (fst e))) (s_ets s) = true).
  { apply forallb_forall. intros e He. destruct (HE (fst e)) as [P Q]; [rewrite <- B; apply in_map; auto|]. apply andb_true_iff. split; [apply negb_true_iff, has_not; intros K; apply P; apply G; auto|]. apply forallb_forall. intros v Hv. apply X. auto. }
  assert (X2 : forallb (fun e => negb (has (fst e) (s_freeN s)) && forallb (fun v => negb (has v (s_freeD s))) (usesN (fst e))) (s_nts s) = true).
  { apply forallb_forall. intros e He. rewrite N. cbn [has existsb negb andb]. apply forallb_forall. intros v Hv. apply X. apply (HN (fst e)); auto. rewrite <- C. apply in_map; auto. }
  assert (X3 : forallb (fun e => negb (has (fst e) (s_freeD s))) (s_dvs s) = true).
  { apply forallb_forall. intros e He. apply X. apply HD. rewrite <- A. apply in_map; auto. }
  rewrite X1, X2, X3. reflexivity.
Qed.
