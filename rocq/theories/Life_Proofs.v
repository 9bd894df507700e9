From Coq Require Import Arith List Bool Lia.
From Verif Require Import Lib_Res Life_Model Life_Spec.
Import ListNotations.

Definition managed_at (l : list object) (i : nat) : Prop := exists y, nth_error l i = Some y /\ x_managed y = true.
Definition VO (vs : list (option (option ptr))) (i : nat) : nat := list_sum (map (fun v => match v with Some q => count_owners i [q] | None => 0 end) vs).
Definition OO (l : list object) (i : nat) : nat := list_sum (map (fun x => if x_live x then count_owners i (x_ops x) else 0) l).
Definition occ (i : nat) (todo : list nat) : nat := count_occ Nat.eq_dec todo i.

Record inv (l : list object) (vs : list (option (option ptr))) (e : nat -> nat) : Prop := mkInv {
  i_down : forall i x p, nth_error l i = Some x -> In (Some p) (x_ops x) -> p_to p < i;
  i_ops : forall i x p, nth_error l i = Some x -> In (Some p) (x_ops x) -> p_own p = true -> managed_at l (p_to p);
  i_range : forall h p, nth_error vs h = Some (Some (Some p)) -> p_to p < length l;
  i_vars : forall h p, nth_error vs h = Some (Some (Some p)) -> p_own p = true -> managed_at l (p_to p);
  i_count : forall i x, nth_error l i = Some x -> x_managed x = true -> x_count x = VO vs i + OO l i + e i /\ (x_live x = true <-> 0 < x_count x) }.

Lemma list_sum_app' : forall a b, list_sum (a ++ b) = list_sum a + list_sum b. Proof. exact list_sum_app. Qed.
Lemma sum_upd : forall A (f : A -> nat) l i x y, nth_error l i = Some x -> list_sum (map f (upd l i y)) + f x = list_sum (map f l) + f y.
Proof.
  induction l as [|a l IH]; intros [|i] x y H; cbn [nth_error upd map list_sum fold_right] in *; try discriminate.
  - injection H as ->. unfold list_sum. cbn [fold_right]. lia.
  - specialize (IH _ _ y H). unfold list_sum in *. cbn [fold_right]. lia.
Qed.
Lemma sum_in : forall A (f : A -> nat) l i x, nth_error l i = Some x -> f x <= list_sum (map f l).
Proof. induction l as [|a l IH]; intros [|i] x H; cbn [nth_error map] in *; try discriminate. - injection H as ->. unfold list_sum. cbn [fold_right]. lia. - specialize (IH _ _ H). unfold list_sum in *. cbn [fold_right]. lia. Qed.

Lemma owners_in : forall i qs p, In (Some p) qs -> p_own p = true -> p_to p = i -> 1 <= count_owners i qs.
Proof.
  intros i qs p H O E. unfold count_owners. assert (I : In (Some p) (filter (is_owner i) qs)).
  { apply filter_In. split; [exact H|]. cbn. rewrite E, Nat.eqb_refl, O. reflexivity. }
  destruct (filter (is_owner i) qs); [contradiction|cbn; lia].
Qed.
Lemma owners_some : forall i qs, 1 <= count_owners i qs -> exists p, In (Some p) qs /\ p_own p = true /\ p_to p = i.
Proof.
  intros i qs H. unfold count_owners in H. destruct (filter (is_owner i) qs) as [|q r] eqn:E; [cbn in H; lia|].
  assert (I : In q (filter (is_owner i) qs)) by (rewrite E; left; reflexivity). apply filter_In in I. destruct I as [I O].
  destruct q as [p|]; [|discriminate]. cbn in O. apply andb_true_iff in O. destruct O as [O1 O2]. apply Nat.eqb_eq in O1. exists p. auto.
Qed.
Lemma occ_owned : forall i qs, occ i (owned qs) = count_owners i qs.
Proof.
  intros i qs. unfold occ, count_owners. induction qs as [|[[j [|]]|] qs IH]; [reflexivity| | |]; cbn [owned flat_map filter is_owner p_to p_own] in *;
    rewrite ?andb_true_r, ?andb_false_r.
  - cbn [app count_occ]. destruct (Nat.eq_dec j i) as [->|N]; [rewrite Nat.eqb_refl; cbn [length]; f_equal; exact IH|].
    destruct (Nat.eqb_spec j i); [contradiction|exact IH].
  - exact IH.
  - exact IH.
Qed.
Lemma occ_app : forall i a b, occ i (a ++ b) = occ i a + occ i b.
Proof. intros. apply count_occ_app. Qed.
Lemma occ_in : forall i a, In i a -> 1 <= occ i a.
Proof. intros i a H. apply (count_occ_In Nat.eq_dec) in H. unfold occ. lia. Qed.

Lemma nth_some_lt : forall A (l : list A) i x, nth_error l i = Some x -> i < length l.
Proof. intros A l i x H. apply nth_error_Some. congruence. Qed.
Lemma upd_cases : forall A (l : list A) i j y z x, nth_error l i = Some x -> nth_error (upd l i y) j = Some z -> (j = i /\ z = y) \/ (j <> i /\ nth_error l j = Some z).
Proof.
  intros A l i j y z x H K. pose proof (nth_some_lt _ _ _ _ H) as L. destruct (Nat.eq_dec i j) as [<-|N].
  - rewrite nth_error_upd_same in K by assumption. injection K as <-. left; auto.
  - rewrite nth_error_upd_other in K by assumption. right; auto.
Qed.

(** changing liveness and count of one object *)
Lemma managed_upd : forall l i x b c j, nth_error l i = Some x -> managed_at l j -> managed_at (upd l i (mkObj (x_managed x) b (x_ops x) c)) j.
Proof.
  intros l i x b c j H (y & Y & M). pose proof (nth_some_lt _ _ _ _ H) as L. destruct (Nat.eq_dec i j) as [<-|N].
  - rewrite H in Y. injection Y as <-. exists (mkObj (x_managed x) b (x_ops x) c). rewrite nth_error_upd_same by assumption. auto.
  - exists y. rewrite nth_error_upd_other by assumption. auto.
Qed.
Lemma inv_upd : forall l vs e i x b c e', inv l vs e -> nth_error l i = Some x ->
  (forall j y, nth_error l j = Some y -> x_managed y = true -> j <> i -> OO (upd l i (mkObj (x_managed x) b (x_ops x) c)) j + e' j = OO l j + e j) ->
  (x_managed x = true -> c = VO vs i + OO (upd l i (mkObj (x_managed x) b (x_ops x) c)) i + e' i /\ (b = true <-> 0 < c)) ->
  inv (upd l i (mkObj (x_managed x) b (x_ops x) c)) vs e'.
Proof.
  intros l vs e i x b c e' I H F G. destruct I as [D O R V C]. split.
  - intros j y p Hj Hp. destruct (upd_cases _ _ _ _ _ _ _ H Hj) as [[-> ->]|[N Hj']]; [exact (D _ _ _ H Hp)|exact (D _ _ _ Hj' Hp)].
  - intros j y p Hj Hp Ho. apply managed_upd; [exact H|]. destruct (upd_cases _ _ _ _ _ _ _ H Hj) as [[-> ->]|[N Hj']]; [exact (O _ _ _ H Hp Ho)|exact (O _ _ _ Hj' Hp Ho)].
  - intros h p Hh. rewrite upd_length. exact (R _ _ Hh).
  - intros h p Hh Ho. apply managed_upd; [exact H|]. exact (V _ _ Hh Ho).
  - intros j y Hj M. destruct (upd_cases _ _ _ _ _ _ _ H Hj) as [[-> ->]|[N Hj']].
    + cbn in *. destruct (G M) as [G1 G2]. split; [exact G1|exact G2].
    + destruct (C _ _ Hj' M) as [C1 C2]. specialize (F _ _ Hj' M N). split; [lia|exact C2].
Qed.
Lemma OO_upd : forall l i x b c j, nth_error l i = Some x ->
  OO (upd l i (mkObj (x_managed x) b (x_ops x) c)) j + (if x_live x then count_owners j (x_ops x) else 0) = OO l j + (if b then count_owners j (x_ops x) else 0).
Proof. intros. unfold OO. exact (sum_upd _ (fun x => if x_live x then count_owners j (x_ops x) else 0) l i x (mkObj (x_managed x) b (x_ops x) c) H). Qed.
Lemma inv_ext : forall l vs e e', inv l vs e -> (forall i, e i = e' i) -> inv l vs e'.
Proof. intros l vs e e' [D O R V C] E. split; auto. intros i x H M. rewrite <- E. exact (C _ _ H M). Qed.

(** copying a pointer *)
Lemma retain_inv : forall l vs e q, inv l vs e -> (forall p, q = Some p -> p_own p = true -> exists x, nth_error l (p_to p) = Some x /\ x_managed x = true /\ x_live x = true) ->
  inv (retain l q) vs (fun i => e i + count_owners i [q]).
Proof.
  intros l vs e [[k [|]]|] I L; cbn [retain].
  - destruct (L _ eq_refl eq_refl) as (x & H & M & A). cbn in H. rewrite H.
    replace (mkObj (x_managed x) (x_live x) (x_ops x) (S (x_count x))) with (mkObj (x_managed x) true (x_ops x) (S (x_count x))) by (rewrite A; reflexivity).
    pose proof (fun j => OO_upd l k x true (S (x_count x)) j H) as U. rewrite A in U.
    apply inv_upd with (e := e); [exact I|exact H| |].
    + intros j y _ _ N. specialize (U j). unfold count_owners at 1. cbn [filter is_owner p_to p_own]. destruct (Nat.eqb_spec k j); [congruence|]. cbn [andb length]. lia.
    + intros _. specialize (U k). unfold count_owners at 1. cbn [filter is_owner p_to p_own]. rewrite Nat.eqb_refl. cbn [andb length].
      destruct (i_count _ _ _ I _ _ H M) as [C _]. split; [lia|split; [lia|reflexivity]].
  - apply inv_ext with (1 := I). intros i. unfold count_owners. cbn [filter is_owner p_to p_own]. rewrite andb_false_r. cbn. lia.
  - apply inv_ext with (1 := I). intros i. cbn. lia.
Qed.

Definition shape (l l' : list object) : Prop := length l' = length l /\ forall i x, nth_error l i = Some x -> exists y, nth_error l' i = Some y /\ x_managed y = x_managed x /\ x_ops y = x_ops x.
Lemma shape_refl : forall l, shape l l. Proof. split; [reflexivity|]. intros i x H; exists x; auto. Qed.
Lemma shape_trans : forall a b c, shape a b -> shape b c -> shape a c.
Proof. intros a b c [L H] [L' H']. split; [congruence|]. intros i x E. destruct (H _ _ E) as (y & Y & M & P). destruct (H' _ _ Y) as (z & Z & M' & P'). exists z. repeat split; congruence. Qed.
Lemma shape_upd : forall l i x b c, nth_error l i = Some x -> shape l (upd l i (mkObj (x_managed x) b (x_ops x) c)).
Proof.
  intros l i x b c H. split; [apply upd_length|]. intros j y E. pose proof (nth_some_lt _ _ _ _ H) as L. destruct (Nat.eq_dec i j) as [<-|N].
  - rewrite nth_error_upd_same by assumption. rewrite H in E. injection E as <-. eexists; split; [reflexivity|]. auto.
  - rewrite nth_error_upd_other by assumption. exists y; auto.
Qed.

(** what a use count guarantees *)
Lemma owner_live : forall l vs e i, inv l vs e -> managed_at l i -> 1 <= VO vs i + OO l i + e i -> exists x, nth_error l i = Some x /\ x_managed x = true /\ x_live x = true.
Proof. intros l vs e i I (x & H & M) L. exists x. split; [exact H|]. split; [exact M|]. destruct (i_count _ _ _ I _ _ H M) as [C [_ C2]]. apply C2. lia. Qed.
Lemma var_live : forall l vs e h p, inv l vs e -> nth_error vs h = Some (Some (Some p)) -> p_own p = true -> exists x, nth_error l (p_to p) = Some x /\ x_managed x = true /\ x_live x = true.
Proof.
  intros l vs e h p I H O. apply owner_live with (1 := I); [exact (i_vars _ _ _ I _ _ H O)|].
  pose proof (sum_in _ (fun v => match v with Some q => count_owners (p_to p) [q] | None => 0 end) vs h _ H) as S1. cbn beta iota in S1.
  pose proof (owners_in (p_to p) [Some p] p (or_introl eq_refl) O eq_refl). unfold VO. lia.
Qed.
Lemma op_live : forall l vs e i x p, inv l vs e -> nth_error l i = Some x -> x_live x = true -> In (Some p) (x_ops x) -> p_own p = true -> exists y, nth_error l (p_to p) = Some y /\ x_managed y = true /\ x_live y = true.
Proof.
  intros l vs e i x p I H L J O. apply owner_live with (1 := I); [exact (i_ops _ _ _ I _ _ _ H J O)|].
  pose proof (sum_in _ (fun x => if x_live x then count_owners (p_to p) (x_ops x) else 0) l i _ H) as S1. cbn beta iota in S1. rewrite L in S1.
  pose proof (owners_in (p_to p) (x_ops x) p J O eq_refl). unfold OO. lia.
Qed.

Definition live_pointers (l : list object) : nat := list_sum (map (fun x => if x_live x then length (owned (x_ops x)) else 0) l).
Lemma live_pointers_le : forall l, live_pointers l <= pointers l.
Proof. induction l as [|x l IH]; [cbn; lia|]. unfold live_pointers, pointers, list_sum in *. cbn [map fold_right]. destruct (x_live x); lia. Qed.

Lemma owned_in : forall i qs, In i (owned qs) -> exists p, In (Some p) qs /\ p_own p = true /\ p_to p = i.
Proof.
  intros i qs H. unfold owned in H. apply in_flat_map in H. destruct H as ([[j [|]]|] & H & K); cbn in K; try contradiction.
  destruct K as [<-|[]]. exists (mkPtr j true). auto.
Qed.

Lemma release_inv : forall fuel todo l vs, inv l vs (fun i => occ i todo) -> (forall i, In i todo -> managed_at l i) -> length todo + live_pointers l <= fuel ->
  exists l', release fuel todo l = Ok l' /\ inv l' vs (fun _ => 0) /\ shape l l'.
Proof.
  induction fuel as [|f IH]; intros todo l vs I Mg F.
  - destruct todo as [|i todo]; [|cbn in F; lia]. exists l. cbn. split; [reflexivity|]. split; [exact I|apply shape_refl].
  - destruct todo as [|i todo]; [exists l; cbn; split; [reflexivity|]; split; [exact I|apply shape_refl]|].
    destruct (Mg i (or_introl eq_refl)) as (x & H & M).
    destruct (i_count _ _ _ I _ _ H M) as [C1 C2]. cbn beta in C1. unfold occ at 1 in C1. cbn [count_occ] in C1. destruct (Nat.eq_dec i i) as [_|N]; [|congruence].
    assert (A : x_live x = true) by (apply C2; lia). cbn [release]. rewrite H, A.
    destruct (x_count x) as [|[|c]] eqn:E; [lia| |].
    + pose proof (fun j => OO_upd l i x false 0 j H) as U. rewrite A in U.
      destruct (IH (owned (x_ops x) ++ todo) (upd l i (mkObj (x_managed x) false (x_ops x) 0)) vs) as (l' & R & I' & Sh).
      * apply inv_upd with (e := fun j => occ j (i :: todo)); [exact I|exact H| |].
        -- intros j y _ _ N. specialize (U j). cbn beta. rewrite occ_app, occ_owned. unfold occ at 2. cbn [count_occ]. destruct (Nat.eq_dec i j); [congruence|]. fold (occ j todo). lia.
        -- intros _. specialize (U i). rewrite occ_app, occ_owned. fold (occ i todo) in C1. split; [lia|]. split; [discriminate|lia].
      * intros j J. apply managed_upd; [exact H|]. apply in_app_or in J. destruct J as [J|J]; [|exact (Mg j (or_intror J))].
        destruct (owned_in _ _ J) as (p & P & O & <-). exact (i_ops _ _ _ I _ _ _ H P O).
      * rewrite app_length. unfold live_pointers. pose proof (sum_upd _ (fun x => if x_live x then length (owned (x_ops x)) else 0) l i x (mkObj (x_managed x) false (x_ops x) 0) H) as U2.
        cbn [x_live x_ops] in U2. rewrite A in U2. cbn [length] in F. unfold live_pointers in F. lia.
      * exists l'. split; [exact R|]. split; [exact I'|]. exact (shape_trans _ _ _ (shape_upd _ _ _ _ _ H) Sh).
    + pose proof (fun j => OO_upd l i x true (S c) j H) as U. rewrite A in U.
      destruct (IH todo (upd l i (mkObj (x_managed x) true (x_ops x) (S c))) vs) as (l' & R & I' & Sh).
      * apply inv_upd with (e := fun j => occ j (i :: todo)); [exact I|exact H| |].
        -- intros j y _ _ N. specialize (U j). cbn beta. unfold occ at 2. cbn [count_occ]. destruct (Nat.eq_dec i j); [congruence|]. fold (occ j todo). lia.
        -- intros _. specialize (U i). fold (occ i todo) in C1. split; [lia|]. split; [lia|reflexivity].
      * intros j J. apply managed_upd; [exact H|]. exact (Mg j (or_intror J)).
      * unfold live_pointers. pose proof (sum_upd _ (fun x => if x_live x then length (owned (x_ops x)) else 0) l i x (mkObj (x_managed x) true (x_ops x) (S c)) H) as U2.
        cbn [x_live x_ops] in U2. rewrite A in U2. cbn [length] in F. unfold live_pointers in F. lia.
      * exists l'. split; [exact R|]. split; [exact I'|]. exact (shape_trans _ _ _ (shape_upd _ _ _ _ _ H) Sh).
Qed.
Lemma release_all_inv : forall todo l vs, inv l vs (fun i => occ i todo) -> (forall i, In i todo -> managed_at l i) ->
  exists l', release_all todo l = Ok l' /\ inv l' vs (fun _ => 0) /\ shape l l'.
Proof. intros. apply release_inv; auto. pose proof (live_pointers_le l). lia. Qed.
