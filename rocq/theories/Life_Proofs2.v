From Coq Require Import Arith List Bool Lia.
From Verif Require Import Lib_Res Life_Model Life_Spec Life_Proofs.
Import ListNotations.

Lemma inv_start : inv [] [] (fun _ => 0).
Proof. split; intros; try (destruct i; discriminate); destruct h; discriminate. Qed.

Lemma VO_app : forall vs v i, VO (vs ++ [v]) i = VO vs i + match v with Some q => count_owners i [q] | None => 0 end.
Proof. intros. unfold VO. rewrite map_app, list_sum_app. cbn. lia. Qed.
Lemma OO_app : forall l x i, OO (l ++ [x]) i = OO l i + if x_live x then count_owners i (x_ops x) else 0.
Proof. intros. unfold OO. rewrite map_app, list_sum_app. cbn. lia. Qed.
Lemma VO_upd : forall vs h q v i, nth_error vs h = Some (Some q) ->
  VO (upd vs h v) i + count_owners i [q] = VO vs i + match v with Some q => count_owners i [q] | None => 0 end.
Proof. intros. unfold VO. exact (sum_upd _ (fun v => match v with Some q => count_owners i [q] | None => 0 end) vs h _ v H). Qed.

Lemma app_cases : forall A (l : list A) a i z, nth_error (l ++ [a]) i = Some z -> nth_error l i = Some z \/ (i = length l /\ z = a).
Proof.
  intros A l a i z H. destruct (Nat.lt_ge_cases i (length l)) as [L|L].
  - rewrite nth_error_app1 in H by assumption. auto.
  - rewrite nth_error_app2 in H by assumption. destruct (i - length l) as [|k] eqn:E; [|destruct k; discriminate].
    injection H as <-. right. split; [lia|reflexivity].
Qed.

(** one more variable of the program *)
Lemma inv_var : forall l vs e q e', inv l vs e -> (forall i, e i = e' i + count_owners i [q]) ->
  (forall p, q = Some p -> p_to p < length l /\ (p_own p = true -> managed_at l (p_to p))) -> inv l (vs ++ [Some q]) e'.
Proof.
  intros l vs e q e' [D O R V C] E Q. split; auto.
  - intros h p H. destruct (app_cases _ _ _ _ _ H) as [H'|[_ H']]; [exact (R _ _ H')|]. injection H' as <-. exact (proj1 (Q _ eq_refl)).
  - intros h p H Ho. destruct (app_cases _ _ _ _ _ H) as [H'|[_ H']]; [exact (V _ _ H' Ho)|]. injection H' as <-. exact (proj2 (Q _ eq_refl) Ho).
  - intros i x H M. destruct (C _ _ H M) as [C1 C2]. rewrite VO_app. specialize (E i). split; [lia|exact C2].
Qed.
(** a variable that changes its pointer or ends *)
Lemma inv_set : forall l vs e h q v e', inv l vs e -> nth_error vs h = Some (Some q) ->
  (forall i, e i + count_owners i [q] = e' i + match v with Some r => count_owners i [r] | None => 0 end) ->
  (forall p, v = Some (Some p) -> p_to p < length l /\ (p_own p = true -> managed_at l (p_to p))) -> inv l (upd vs h v) e'.
Proof.
  intros l vs e h q v e' [D O R V C] H E Q. split; auto.
  - intros k p K. destruct (upd_cases _ _ _ _ _ _ _ H K) as [[_ K']|[_ K']]; [|exact (R _ _ K')]. exact (proj1 (Q _ (eq_sym K'))).
  - intros k p K Ho. destruct (upd_cases _ _ _ _ _ _ _ H K) as [[_ K']|[_ K']]; [|exact (V _ _ K' Ho)]. exact (proj2 (Q _ (eq_sym K')) Ho).
  - intros i x Hi M. destruct (C _ _ Hi M) as [C1 C2]. pose proof (VO_upd vs h q v i H). specialize (E i). split; [lia|exact C2].
Qed.
Lemma managed_app : forall l x i, managed_at l i -> managed_at (l ++ [x]) i.
Proof. intros l x i (y & H & M). exists y. split; [|exact M]. rewrite nth_error_app1; [exact H|]. exact (nth_some_lt _ _ _ _ H). Qed.
(** one more object *)
Lemma inv_obj : forall l vs e qs m c e', inv l vs e ->
  (forall p, In (Some p) qs -> p_to p < length l /\ (p_own p = true -> managed_at l (p_to p))) ->
  (forall i, i < length l -> e i = e' i + count_owners i qs) ->
  (m = true -> 0 < c /\ c = VO vs (length l) + OO l (length l) + count_owners (length l) qs + e' (length l)) ->
  inv (l ++ [mkObj m true qs c]) vs e'.
Proof.
  intros l vs e qs m c e' [D O R V C] Q E N. split.
  - intros i x p H P. destruct (app_cases _ _ _ _ _ H) as [H'|[-> ->]]; [exact (D _ _ _ H' P)|]. exact (proj1 (Q _ P)).
  - intros i x p H P Ho. apply managed_app. destruct (app_cases _ _ _ _ _ H) as [H'|[-> ->]]; [exact (O _ _ _ H' P Ho)|]. exact (proj2 (Q _ P) Ho).
  - intros h p H. rewrite app_length. cbn. specialize (R _ _ H). lia.
  - intros h p H Ho. apply managed_app. exact (V _ _ H Ho).
  - intros i x H M. rewrite OO_app. cbn [x_live x_ops]. destruct (app_cases _ _ _ _ _ H) as [H'|[-> ->]].
    + destruct (C _ _ H' M) as [C1 C2]. specialize (E i (nth_some_lt _ _ _ _ H')). split; [lia|exact C2].
    + cbn in *. destruct (N M) as [N1 N2]. split; [lia|]. split; [intros _; exact N1|reflexivity].
Qed.
(** nobody points to an object that does not exist yet *)
Lemma no_owner_yet : forall l vs e, inv l vs e -> VO vs (length l) = 0 /\ OO l (length l) = 0.
Proof.
  intros l vs e I. split.
  - destruct (VO vs (length l)) eqn:E; [reflexivity|exfalso]. assert (G : forall vs', (forall h p, nth_error vs' h = Some (Some (Some p)) -> p_to p < length l) -> VO vs' (length l) = 0).
    { induction vs' as [|v vs' IH]; intros R; [reflexivity|]. unfold VO in *. cbn [map]. unfold list_sum in *. cbn [fold_right]. rewrite IH by (intros h p H; exact (R (S h) p H)).
      destruct v as [[p|]|]; cbn; auto. specialize (R 0 p eq_refl). destruct (Nat.eqb_spec (p_to p) (length l)); [lia|reflexivity]. }
    rewrite G in E; [discriminate|exact (i_range _ _ _ I)].
  - assert (G : forall l' n, (forall i x p, nth_error l' i = Some x -> In (Some p) (x_ops x) -> p_to p < n) -> OO l' n = 0).
    { induction l' as [|x l' IH]; intros n R; [reflexivity|]. unfold OO in *. cbn [map]. unfold list_sum in *. cbn [fold_right]. rewrite IH by (intros i y p H; exact (R (S i) y p H)).
      destruct (x_live x); [|reflexivity]. destruct (count_owners n (x_ops x)) eqn:E; [reflexivity|]. destruct (owners_some n (x_ops x)) as (p & P & _ & T); [lia|].
      specialize (R 0 x p eq_refl P). lia. }
    apply G. intros i x p H P. pose proof (i_down _ _ _ I _ _ _ H P). pose proof (nth_some_lt _ _ _ _ H). lia.
Qed.

Lemma var_nth : forall s h q, var s h = Ok q -> nth_error (vars s) h = Some (Some q).
Proof. intros s h q. unfold var. destruct (nth_error (vars s) h) as [[r|]|]; intros [= ->]. reflexivity. Qed.
Lemma roots_nth : forall s hs qs, roots s hs = Ok qs -> forall q, In q qs -> exists h, nth_error (vars s) h = Some (Some q).
Proof.
  intros s hs. induction hs as [|h hs IH]; intros qs E q J; cbn in E; [injection E as <-; contradiction|].
  destruct (var s h) as [r| |] eqn:V; cbn in E; try discriminate. destruct (roots s hs) as [rs| |] eqn:Rs; cbn in E; try discriminate. injection E as <-.
  destruct J as [->|J]; [exists h; exact (var_nth _ _ _ V)|exact (IH _ eq_refl _ J)].
Qed.

Lemma retain_shape : forall l q, shape l (retain l q).
Proof.
  intros l [[i [|]]|]; cbn; try apply shape_refl. destruct (nth_error l i) as [x|] eqn:H; [|apply shape_refl]. apply (shape_upd l i x (x_live x) _ H).
Qed.
Lemma shape_managed : forall l l' i, shape l l' -> managed_at l i -> managed_at l' i.
Proof. intros l l' i [_ H] (x & X & M). destruct (H _ _ X) as (y & Y & MY & _). exists y. split; [exact Y|congruence]. Qed.
Lemma shape_range : forall l l' n, shape l l' -> n < length l -> n < length l'.
Proof. intros l l' n [E _] H. lia. Qed.

Lemma retain_all_inv : forall qs l vs e, inv l vs e -> (forall q, In q qs -> exists h, nth_error vs h = Some (Some q)) ->
  inv (retain_all l qs) vs (fun i => e i + count_owners i qs) /\ shape l (retain_all l qs).
Proof.
  induction qs as [|q qs IH]; intros l vs e I Q; cbn [retain_all fold_left].
  - split; [|apply shape_refl]. apply inv_ext with (1 := I). intros i. cbn. lia.
  - destruct (Q q (or_introl eq_refl)) as (h & H).
    assert (I1 : inv (retain l q) vs (fun i => e i + count_owners i [q])).
    { apply retain_inv; [exact I|]. intros p -> Ho. exact (var_live _ _ _ _ _ I H Ho). }
    destruct (IH _ vs _ I1 (fun r J => Q r (or_intror J))) as [I2 Sh]. split.
    + apply inv_ext with (1 := I2). intros i. cbn beta. change (q :: qs) with ([q] ++ qs). unfold count_owners. rewrite filter_app, app_length. lia.
    + exact (shape_trans _ _ _ (retain_shape l q) Sh).
Qed.

Lemma q_in_range : forall l vs e h q p, inv l vs e -> nth_error vs h = Some (Some q) -> q = Some p -> p_to p < length l /\ (p_own p = true -> managed_at l (p_to p)).
Proof. intros l vs e h q p I H ->. split; [exact (i_range _ _ _ I _ _ H)|exact (i_vars _ _ _ I _ _ H)]. Qed.

Definition sinv (s : state) : Prop := inv (objs s) (vars s) (fun _ => 0).

(** the end of an expression *)
Lemma drop_inv : forall s h q, sinv s -> nth_error (vars s) h = Some (Some q) ->
  exists l, release_all (owned [q]) (objs s) = Ok l /\ inv l (upd (vars s) h None) (fun _ => 0).
Proof.
  intros s h q I H. destruct (release_all_inv (owned [q]) (objs s) (upd (vars s) h None)) as (l & R & I' & _).
  - apply inv_set with (1 := I) (2 := H).
    + intros i. rewrite occ_owned. lia.
    + discriminate.
  - intros i J. destruct (owned_in _ _ J) as (p & P & O & <-). destruct P as [->|[]]. exact (i_vars _ _ _ I _ _ H O).
  - exists l. auto.
Qed.
Lemma assign_inv : forall s h old h' q, sinv s -> nth_error (vars s) h = Some (Some old) -> nth_error (vars s) h' = Some (Some q) ->
  exists l, release_all (owned [old]) (retain (objs s) q) = Ok l /\ inv l (upd (vars s) h (Some q)) (fun _ => 0).
Proof.
  intros s h old h' q I H H'.
  assert (I1 : inv (retain (objs s) q) (vars s) (fun i => 0 + count_owners i [q])).
  { apply retain_inv; [exact I|]. intros p -> Ho. exact (var_live _ _ _ _ _ I H' Ho). }
  destruct (release_all_inv (owned [old]) (retain (objs s) q) (upd (vars s) h (Some q))) as (l & R & I' & _).
  - apply inv_set with (1 := I1) (2 := H).
    + intros i. rewrite occ_owned. lia.
    + intros p [= ->]. exact (q_in_range _ _ _ _ _ _ I1 H' eq_refl).
  - intros i J. destruct (owned_in _ _ J) as (p & P & O & <-). destruct P as [->|[]]. exact (i_vars _ _ _ I1 _ _ H O).
  - exists l. auto.
Qed.
Lemma end_inv : forall s i x, sinv s -> nth_error (objs s) i = Some x -> x_live x = true -> x_managed x = false ->
  exists l, release_all (owned (x_ops x)) (upd (objs s) i (mkObj false false (x_ops x) 0)) = Ok l /\ inv l (vars s) (fun _ => 0).
Proof.
  intros s i x I H A M. pose proof (fun j => OO_upd (objs s) i x false 0 j H) as U. rewrite A, M in U.
  destruct (release_all_inv (owned (x_ops x)) (upd (objs s) i (mkObj false false (x_ops x) 0)) (vars s)) as (l & R & I' & _).
  - rewrite <- M at 1. apply inv_upd with (e := fun _ => 0); [exact I|exact H| |].
    + intros j y _ _ N. specialize (U j). rewrite M, occ_owned. lia.
    + intros E. congruence.
  - intros j J. rewrite <- M at 1. apply managed_upd; [exact H|]. destruct (owned_in _ _ J) as (p & P & O & <-). exact (i_ops _ _ _ I _ _ _ H P O).
  - exists l. auto.
Qed.

Lemma step_inv : forall s o s', sinv s -> step s o = Ok s' -> sinv s'.
Proof.
  intros s o s' I E. destruct o as [hs|hs|i| |h|h h'|h|i|h]; cbn [step] in E.
  - destruct (roots s hs) as [qs| |] eqn:Rt; cbn [bind] in E; try discriminate. injection E as <-. unfold sinv; cbn [objs vars].
    destruct (retain_all_inv qs _ _ _ I (roots_nth _ _ _ Rt)) as [I1 Sh].
    apply inv_obj with (e := fun i => 0 + count_owners i qs); [exact I1| | |discriminate].
    + intros p P. destruct (roots_nth _ _ _ Rt _ P) as (h & H). exact (q_in_range _ _ _ _ _ _ I1 H eq_refl).
    + intros i _. lia.
  - destruct (roots s hs) as [qs| |] eqn:Rt; cbn [bind] in E; try discriminate. injection E as <-. unfold sinv; cbn [objs vars].
    destruct (retain_all_inv qs _ _ _ I (roots_nth _ _ _ Rt)) as [I1 Sh].
    assert (Q : forall p, In (Some p) qs -> p_to p < length (retain_all (objs s) qs) /\ (p_own p = true -> managed_at (retain_all (objs s) qs) (p_to p))).
    { intros p P. destruct (roots_nth _ _ _ Rt _ P) as (h & H). exact (q_in_range _ _ _ _ _ _ I1 H eq_refl). }
    destruct (no_owner_yet _ _ _ I1) as [N1 N2].
    assert (N3 : count_owners (length (retain_all (objs s) qs)) qs = 0).
    { destruct (count_owners (length (retain_all (objs s) qs)) qs) eqn:E; [reflexivity|]. destruct (owners_some (length (retain_all (objs s) qs)) qs) as (p & P & _ & T); [lia|]. specialize (Q _ P). lia. }
    rewrite <- (proj1 Sh). set (n := length (retain_all (objs s) qs)) in *.
    apply inv_var with (e := fun i => if i =? n then 1 else 0).
    + apply inv_obj with (e := fun i => 0 + count_owners i qs); [exact I1|exact Q| |].
      * intros i L. fold n in L. destruct (Nat.eqb_spec i n); [lia|]. lia.
      * intros _. fold n. rewrite Nat.eqb_refl. lia.
    + intros i. unfold count_owners. cbn [filter is_owner p_to p_own]. rewrite Nat.eqb_sym. destruct (Nat.eqb_spec n i); cbn; reflexivity.
    + intros p [= <-]. cbn [p_to p_own]. split; [rewrite app_length; fold n; cbn; lia|]. intros _. exists (mkObj true true qs 1). split; [|reflexivity].
      rewrite nth_error_app2 by (fold n; lia). fold n. rewrite Nat.sub_diag. reflexivity.
  - destruct (nth_error (objs s) i) as [x|] eqn:H; [|discriminate]. destruct (x_live x); [|discriminate]. injection E as <-. unfold sinv; cbn [objs vars].
    apply inv_var with (1 := I).
    + intros j. unfold count_owners. cbn [filter is_owner p_to p_own]. rewrite andb_false_r. reflexivity.
    + intros p [= <-]. cbn. split; [exact (nth_some_lt _ _ _ _ H)|discriminate].
  - injection E as <-. unfold sinv; cbn [objs vars]. apply inv_var with (1 := I); [reflexivity|discriminate].
  - destruct (var s h) as [q| |] eqn:V; cbn [bind] in E; try discriminate. injection E as <-. unfold sinv; cbn [objs vars]. apply var_nth in V.
    assert (I1 : inv (retain (objs s) q) (vars s) (fun i => 0 + count_owners i [q])).
    { apply retain_inv; [exact I|]. intros p -> Ho. exact (var_live _ _ _ _ _ I V Ho). }
    apply inv_var with (1 := I1); [reflexivity|]. intros p ->. exact (q_in_range _ _ _ _ _ _ I1 V eq_refl).
  - destruct (var s h) as [old| |] eqn:V; cbn [bind] in E; try discriminate. destruct (var s h') as [q| |] eqn:V'; cbn [bind] in E; try discriminate.
    apply var_nth in V, V'. destruct (assign_inv _ _ _ _ _ I V V') as (l & R & I'). rewrite R in E. cbn [bind] in E. injection E as <-. exact I'.
  - destruct (var s h) as [q| |] eqn:V; cbn [bind] in E; try discriminate. apply var_nth in V.
    destruct (drop_inv _ _ _ I V) as (l & R & I'). rewrite R in E. cbn [bind] in E. injection E as <-. exact I'.
  - destruct (nth_error (objs s) i) as [x|] eqn:H; [|discriminate]. destruct (x_live x) eqn:A; [|discriminate]. destruct (x_managed x) eqn:M; [discriminate|].
    cbn [andb negb] in E. destruct (end_inv _ _ _ I H A M) as (l & R & I'). rewrite R in E. cbn [bind] in E. injection E as <-. exact I'.
  - destruct (var s h) as [q| |] eqn:V; cbn [bind] in E; try discriminate. destruct (touch _ _ q) as [[]| |]; cbn [bind] in E; try discriminate. injection E as <-. exact I.
Qed.
Lemma run_inv : forall p s s', sinv s -> run s p = Ok s' -> sinv s'.
Proof.
  induction p as [|o p IH]; intros s s' I E; cbn in E; [injection E as <-; exact I|].
  destruct (step s o) as [s1| |] eqn:S1; cbn in E; try discriminate. exact (IH _ _ (step_inv _ _ _ I S1) E).
Qed.
Lemma reachable_inv : forall s, reachable s -> sinv s.
Proof. intros s (p & E). exact (run_inv _ start s inv_start E). Qed.

(** ** the properties *)
Lemma alive_owned : forall s i, reachable s -> managed s i -> (alive s i <-> 1 <= owners s i).
Proof.
  intros s i Rs (x & H & M). pose proof (reachable_inv _ Rs) as I. destruct (i_count _ _ _ I _ _ H M) as [C1 C2]. unfold owners. change (var_owners s i) with (VO (vars s) i). change (obj_owners s i) with (OO (objs s) i).
  split.
  - intros (y & Y & A). rewrite H in Y. injection Y as <-. apply C2 in A. lia.
  - intros L. exists x. split; [exact H|]. apply C2. lia.
Qed.

Lemma drop_ok : forall s h, reachable s -> (exists q, nth_error (vars s) h = Some (Some q)) -> exists s', step s (Drop h) = Ok s'.
Proof.
  intros s h Rs (q & H). destruct (drop_inv s h q (reachable_inv _ Rs) H) as (l & R & _). exists (mkState l (upd (vars s) h None)).
  cbn [step]. unfold var. rewrite H. cbn [bind]. rewrite R. reflexivity.
Qed.
Lemma assign_ok : forall s h h', reachable s -> (exists q, nth_error (vars s) h = Some (Some q)) -> (exists q, nth_error (vars s) h' = Some (Some q)) -> exists s', step s (Assign h h') = Ok s'.
Proof.
  intros s h h' Rs (q & H) (q' & H'). destruct (assign_inv s h q h' q' (reachable_inv _ Rs) H H') as (l & R & _). eexists.
  cbn [step]. unfold var. rewrite H, H'. cbn [bind]. rewrite R. reflexivity.
Qed.
Lemma end_ok : forall s i, reachable s -> alive s i -> ~ managed s i -> exists s', step s (EndVariable i) = Ok s'.
Proof.
  intros s i Rs (x & H & A) N. assert (M : x_managed x = false). { destruct (x_managed x) eqn:M; [|reflexivity]. exfalso; apply N. exists x; auto. }
  destruct (end_inv s i x (reachable_inv _ Rs) H A M) as (l & R & _). eexists. cbn [step]. rewrite H, A, M. cbn [andb negb]. rewrite R. reflexivity.
Qed.

(** evaluation *)
Lemma fold_ok : forall A (f : A -> res unit) l, (forall o, In o l -> f o = Ok tt) -> fold_left (fun r o => do _ <- r; f o) l (Ok tt) = Ok tt.
Proof. intros A f l. induction l as [|a l IH]; intros H; [reflexivity|]. cbn [fold_left bind]. rewrite (H a (or_introl eq_refl)). apply IH. intros o J. exact (H o (or_intror J)). Qed.
Lemma fold_ub : forall A (f : A -> res unit) l, fold_left (fun r o => do _ <- r; f o) l UB = UB.
Proof. intros A f l. induction l; [reflexivity|exact IHl]. Qed.
Lemma fold_not_ok : forall A (f : A -> res unit) l, (forall o, f o = Ok tt \/ f o = UB) -> fold_left (fun r o => do _ <- r; f o) l (Ok tt) <> Ok tt -> exists o, In o l /\ f o = UB.
Proof.
  intros A f l F. induction l as [|a l IH]; intros H; [exfalso; apply H; reflexivity|]. cbn [fold_left bind] in H.
  destruct (F a) as [E|E]; [rewrite E in H; destruct (IH H) as (o & J & K); exists o; split; [right; exact J|exact K]|exists a; split; [left; reflexivity|exact E]].
Qed.
Lemma fold_in_ub : forall A (f : A -> res unit) l o, (forall o, f o = Ok tt \/ f o = UB) -> In o l -> f o = UB -> fold_left (fun r o => do _ <- r; f o) l (Ok tt) = UB.
Proof.
  intros A f l o F. induction l as [|a l IH]; intros J E; [contradiction|]. cbn [fold_left bind]. destruct (F a) as [Ea|Ea]; rewrite Ea; [|apply fold_ub].
  destruct J as [->|J]; [congruence|exact (IH J E)].
Qed.
Lemma touch_total : forall fuel l q, touch fuel l q = Ok tt \/ touch fuel l q = UB.
Proof.
  induction fuel as [|f IH]; intros l [p|]; cbn; auto. destruct (nth_error l (p_to p)) as [x|]; auto. destruct (x_live x); auto.
  generalize (x_ops x) as ops. intros ops. induction ops as [|o ops IHo]; [left; reflexivity|]. cbn [fold_left bind]. destruct (IH l o) as [E|E]; rewrite E; [exact IHo|right; apply fold_ub].
Qed.
Lemma touch_spec : forall fuel s q, sinv s ->
  (forall p, q = Some p -> p_to p < fuel /\ (p_own p = true -> alive s (p_to p))) ->
  (touch fuel (objs s) q = UB <-> exists r, reaches s q r /\ dangles s r).
Proof.
  induction fuel as [|f IH]; intros s [p|] I Q.
  - destruct (Q _ eq_refl). lia.
  - cbn. split; [discriminate|]. intros (r & Rr & (p & -> & _)). inversion Rr.
  - destruct (Q _ eq_refl) as [L Al]. cbn [touch]. destruct (nth_error (objs s) (p_to p)) as [x|] eqn:H.
    2:{ split; [intros _|reflexivity]. exists (Some p). split; [constructor|]. exists p. split; [reflexivity|].
        assert (NA : ~ alive s (p_to p)) by (intros (y & Y & _); congruence). split; [|exact NA]. destruct (p_own p); [exfalso; auto|reflexivity]. }
    destruct (x_live x) eqn:A.
    2:{ split; [intros _|reflexivity]. exists (Some p). split; [constructor|]. exists p. split; [reflexivity|].
        assert (NA : ~ alive s (p_to p)) by (intros (y & Y & B); congruence). split; [|exact NA]. destruct (p_own p); [exfalso; auto|reflexivity]. }
    assert (QO : forall o, In o (x_ops x) -> forall p0, o = Some p0 -> p_to p0 < f /\ (p_own p0 = true -> alive s (p_to p0))).
    { intros o J p0 ->. split; [pose proof (i_down _ _ _ I _ _ _ H J); lia|]. intros Ho. destruct (op_live _ _ _ _ _ _ I H A J Ho) as (y & Y & _ & B). exists y; auto. }
    split.
    + intros E. destruct (fold_not_ok _ (touch f (objs s)) (x_ops x) (touch_total f (objs s))) as (o & J & K); [rewrite E; discriminate|].
      destruct (proj1 (IH s o I (QO o J)) K) as (r & Rr & Dr). exists r. split; [|exact Dr]. exact (reach_on s p x o r H A J Rr).
    + intros (r & Rr & Dr). inversion Rr as [q0 E0 E1|p0 x0 o q0 H0 A0 J Ro E0 E1]; subst.
      * destruct Dr as (p1 & [= <-] & _ & NA). exfalso. apply NA. exists x; auto.
      * rewrite H in H0. injection H0 as <-. apply fold_in_ub with (o := o); [exact (touch_total f (objs s))|exact J|]. apply (IH s o I (QO o J)). exists r; auto.
  - cbn. split; [discriminate|]. intros (r & Rr & (p & -> & _)). inversion Rr.
Qed.
Lemma evaluate_spec : forall s h q, reachable s -> nth_error (vars s) h = Some (Some q) ->
  (step s (Evaluate h) = Ok s /\ ~ (exists r, reaches s q r /\ dangles s r)) \/ (step s (Evaluate h) = UB /\ exists r, reaches s q r /\ dangles s r).
Proof.
  intros s h q Rs H. pose proof (reachable_inv _ Rs) as I. cbn [step]. unfold var. rewrite H. cbn [bind].
  assert (Q : forall p, q = Some p -> p_to p < S (length (objs s)) /\ (p_own p = true -> alive s (p_to p))).
  { intros p ->. split; [pose proof (i_range _ _ _ I _ _ H); lia|]. intros Ho. destruct (var_live _ _ _ _ _ I H Ho) as (x & X & _ & A). exists x; auto. }
  pose proof (touch_spec (S (length (objs s))) s q I Q) as T. destruct (touch_total (S (length (objs s))) (objs s) q) as [E|E]; rewrite E in *; cbn [bind].
  - left. split; [reflexivity|]. intros B. apply T in B. discriminate.
  - right. split; [reflexivity|]. apply T. reflexivity.
Qed.

(** nothing is left behind *)
Lemma no_leak : forall s, reachable s -> (forall h v, nth_error (vars s) h = Some v -> v = None) -> (forall i, alive s i -> managed s i) -> forall i, ~ alive s i.
Proof.
  intros s Rs Nv Nu. pose proof (reachable_inv _ Rs) as I.
  assert (V0 : forall i, var_owners s i = 0).
  { intros i. unfold var_owners. assert (G : forall vs, (forall h v, nth_error vs h = Some v -> v = None) -> list_sum (map (fun v : option (option ptr) => match v with Some q => count_owners i [q] | None => 0 end) vs) = 0).
    { induction vs as [|v vs IH]; intros N; [reflexivity|]. cbn [map]. rewrite (N 0 v eq_refl). unfold list_sum in *. cbn [fold_right]. rewrite IH; [reflexivity|]. intros h w Hw. exact (N (S h) w Hw). }
    apply G. exact Nv. }
  assert (Up : forall i, alive s i -> exists j, i < j /\ alive s j).
  { intros i A. pose proof (proj1 (alive_owned s i Rs (Nu i A)) A) as L. unfold owners in L. rewrite V0 in L. unfold obj_owners in L.
    assert (G : forall l, 1 <= list_sum (map (fun x => if x_live x then count_owners i (x_ops x) else 0) l) -> exists j x, nth_error l j = Some x /\ x_live x = true /\ 1 <= count_owners i (x_ops x)).
    { induction l as [|x l IH]; intros K; [cbn in K; lia|]. cbn [map] in K. unfold list_sum in *. cbn [fold_right] in K. destruct (x_live x) eqn:B.
      - destruct (count_owners i (x_ops x)) eqn:C; [|exists 0, x; split; [reflexivity|]; split; [exact B|lia]]. destruct (IH K) as (j & y & Y). exists (S j), y. exact Y.
      - destruct (IH K) as (j & y & Y). exists (S j), y. exact Y. }
    destruct (G (objs s) L) as (j & x & X & B & C). destruct (owners_some _ _ C) as (p & P & _ & <-). exists j. split; [exact (i_down _ _ _ I _ _ _ X P)|exists x; auto]. }
  assert (K : forall n i, length (objs s) - i <= n -> ~ alive s i).
  { induction n as [|n IH]; intros i Ln A.
    - destruct A as (x & X & _). apply nth_some_lt in X. lia.
    - destruct (Up i A) as (j & Lj & Aj). assert (i < length (objs s)) by (destruct A as (x & X & _); exact (nth_some_lt _ _ _ _ X)). apply (IH j); [lia|exact Aj]. }
  intros i. exact (K (length (objs s)) i ltac:(lia)).
Qed.
