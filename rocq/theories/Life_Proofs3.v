From Coq Require Import Arith List Bool Lia.
From Verif Require Import Lib_Res Life_Model Life_Spec Life_Proofs Life_Proofs2.
Import ListNotations.

(** every pointer that does not own comes from a FromPointer *)
Definition borrows (P : nat -> Prop) (l : list object) (vs : list (option (option ptr))) : Prop :=
  (forall h p, nth_error vs h = Some (Some (Some p)) -> p_own p = false -> P (p_to p)) /\
  (forall i x p, nth_error l i = Some x -> In (Some p) (x_ops x) -> p_own p = false -> P (p_to p)).

Definition same_ops (l l' : list object) : Prop := forall i y, nth_error l' i = Some y -> exists x, nth_error l i = Some x /\ x_ops y = x_ops x.
Lemma so_refl : forall l, same_ops l l. Proof. intros l i y H; exists y; auto. Qed.
Lemma so_trans : forall a b c, same_ops a b -> same_ops b c -> same_ops a c.
Proof. intros a b c H K i y Y. destruct (K _ _ Y) as (x & X & E). destruct (H _ _ X) as (z & Z & F). exists z. split; [exact Z|congruence]. Qed.
Lemma so_upd : forall l i x m b c, nth_error l i = Some x -> same_ops l (upd l i (mkObj m b (x_ops x) c)).
Proof. intros l i x m b c H j y Y. destruct (upd_cases _ _ _ _ _ _ _ H Y) as [[-> ->]|[_ Y']]; [exists x; auto|exists y; auto]. Qed.
Lemma so_retain : forall l q, same_ops l (retain l q).
Proof. intros l [[i [|]]|]; cbn; try apply so_refl. destruct (nth_error l i) as [x|] eqn:H; [apply (so_upd _ _ _ _ _ _ H)|apply so_refl]. Qed.
Lemma so_retain_all : forall qs l, same_ops l (retain_all l qs).
Proof. induction qs as [|q qs IH]; intros l; [apply so_refl|]. exact (so_trans _ _ _ (so_retain l q) (IH _)). Qed.
Lemma so_release : forall f todo l l', release f todo l = Ok l' -> same_ops l l'.
Proof.
  induction f as [|f IH]; intros [|i todo] l l' E; cbn in E; try discriminate; try (injection E as <-; apply so_refl).
  destruct (nth_error l i) as [x|] eqn:H; [|discriminate]. destruct (x_live x); [|discriminate]. destruct (x_count x) as [|[|c]]; [discriminate| |];
  exact (so_trans _ _ _ (so_upd _ _ _ _ _ _ H) (IH _ _ _ E)).
Qed.
Lemma bor_ops : forall (P : nat -> Prop) l l' vs, borrows P l vs -> same_ops l l' -> borrows P l' vs.
Proof. intros P l l' vs [V O] S. split; [exact V|]. intros i y p Y J. destruct (S _ _ Y) as (x & X & E). rewrite E in J. exact (O _ _ _ X J). Qed.
Lemma bor_var : forall (P : nat -> Prop) l vs q, borrows P l vs -> (forall p, q = Some p -> p_own p = false -> P (p_to p)) -> borrows P l (vs ++ [Some q]).
Proof. intros P l vs q [V O] Q. split; [|exact O]. intros h p H. destruct (app_cases _ _ _ _ _ H) as [H'|[_ H']]; [exact (V _ _ H')|]. injection H' as <-. exact (Q _ eq_refl). Qed.
Lemma bor_obj : forall (P : nat -> Prop) l vs x, borrows P l vs -> (forall p, In (Some p) (x_ops x) -> p_own p = false -> P (p_to p)) -> borrows P (l ++ [x]) vs.
Proof. intros P l vs x [V O] Q. split; [exact V|]. intros i y p H J. destruct (app_cases _ _ _ _ _ H) as [H'|[_ ->]]; [exact (O _ _ _ H' J)|exact (Q _ J)]. Qed.
Lemma bor_set : forall (P : nat -> Prop) l vs h r v, borrows P l vs -> nth_error vs h = Some r -> (forall p, v = Some (Some p) -> p_own p = false -> P (p_to p)) -> borrows P l (upd vs h v).
Proof. intros P l vs h r v [V O] H Q. split; [|exact O]. intros k p K. destruct (upd_cases _ _ _ _ _ _ _ H K) as [[_ K']|[_ K']]; [exact (Q _ (eq_sym K'))|exact (V _ _ K')]. Qed.

Lemma step_borrows : forall (P : nat -> Prop) s o s', borrows P (objs s) (vars s) -> (forall i, o = FromPointer i -> P i) -> step s o = Ok s' -> borrows P (objs s') (vars s').
Proof.
  intros P s o s' B F E. destruct o as [hs|hs|i| |h|h h'|h|i|h]; cbn [step] in E.
  - destruct (roots s hs) as [qs| |] eqn:Rt; cbn [bind] in E; try discriminate. injection E as <-. cbn [objs vars].
    apply bor_obj; [exact (bor_ops _ _ _ _ B (so_retain_all qs _))|]. cbn [x_ops]. intros p J. destruct (roots_nth _ _ _ Rt _ J) as (h & H). exact (proj1 B _ _ H).
  - destruct (roots s hs) as [qs| |] eqn:Rt; cbn [bind] in E; try discriminate. injection E as <-. cbn [objs vars].
    apply bor_var; [|intros p [= <-]; discriminate].
    apply bor_obj; [exact (bor_ops _ _ _ _ B (so_retain_all qs _))|]. cbn [x_ops]. intros p J. destruct (roots_nth _ _ _ Rt _ J) as (h & H). exact (proj1 B _ _ H).
  - destruct (nth_error (objs s) i) as [x|] eqn:H; [|discriminate]. destruct (x_live x); [|discriminate]. injection E as <-. cbn [objs vars].
    apply bor_var; [exact B|]. intros p [= <-] _. exact (F _ eq_refl).
  - injection E as <-. apply bor_var; [exact B|discriminate].
  - destruct (var s h) as [q| |] eqn:V; cbn [bind] in E; try discriminate. injection E as <-. cbn [objs vars]. apply var_nth in V.
    apply bor_var; [exact (bor_ops _ _ _ _ B (so_retain _ q))|]. intros p ->. exact (proj1 B _ _ V).
  - destruct (var s h) as [old| |] eqn:V; cbn [bind] in E; try discriminate. destruct (var s h') as [q| |] eqn:V'; cbn [bind] in E; try discriminate.
    destruct (release_all (owned [old]) (retain (objs s) q)) as [l| |] eqn:R; cbn [bind] in E; try discriminate. injection E as <-. cbn [objs vars]. apply var_nth in V, V'.
    apply bor_set with (2 := V); [exact (bor_ops _ _ _ _ B (so_trans _ _ _ (so_retain _ q) (so_release _ _ _ _ R)))|]. intros p [= ->]. exact (proj1 B _ _ V').
  - destruct (var s h) as [q| |] eqn:V; cbn [bind] in E; try discriminate.
    destruct (release_all (owned [q]) (objs s)) as [l| |] eqn:R; cbn [bind] in E; try discriminate. injection E as <-. cbn [objs vars]. apply var_nth in V.
    apply bor_set with (2 := V); [exact (bor_ops _ _ _ _ B (so_release _ _ _ _ R))|discriminate].
  - destruct (nth_error (objs s) i) as [x|] eqn:H; [|discriminate]. destruct (x_live x && negb (x_managed x)); [|discriminate].
    destruct (release_all (owned (x_ops x)) _) as [l| |] eqn:R in E; cbn [bind] in E; try discriminate. injection E as <-. cbn [objs vars].
    exact (bor_ops _ _ _ _ B (so_trans _ _ _ (so_upd _ _ _ _ _ _ H) (so_release _ _ _ _ R))).
  - destruct (var s h) as [q| |]; cbn [bind] in E; try discriminate. destruct (touch _ _ q) as [[]| |]; cbn [bind] in E; try discriminate. injection E as <-. exact B.
Qed.
Lemma run_borrows : forall (P : nat -> Prop) p s s', borrows P (objs s) (vars s) -> (forall i, pointed_to p i -> P i) -> run s p = Ok s' -> borrows P (objs s') (vars s').
Proof.
  intros P. induction p as [|o p IH]; intros s s' B F E; cbn in E; [injection E as <-; exact B|].
  destruct (step s o) as [s1| |] eqn:S1; cbn in E; try discriminate. apply (IH s1 s'); [|intros i J; exact (F i (or_intror J))|exact E].
  apply (step_borrows P s o s1 B); [|exact S1]. intros i ->. exact (F i (or_introl eq_refl)).
Qed.
Lemma reaches_borrow : forall (P : nat -> Prop) s q r, (forall i x p, nth_error (objs s) i = Some x -> In (Some p) (x_ops x) -> p_own p = false -> P (p_to p)) ->
  (forall p, q = Some p -> p_own p = false -> P (p_to p)) -> reaches s q r -> forall p, r = Some p -> p_own p = false -> P (p_to p).
Proof. intros P s q r O Q H. induction H as [q|p x o q H A J Ro IH]; [exact Q|]. apply IH. intros p0 ->. exact (O _ _ _ H J). Qed.

Lemma kept_alive : forall p s h, run start p = Ok s -> (exists q, nth_error (vars s) h = Some (Some q)) -> (forall i, pointed_to p i -> alive s i) -> step s (Evaluate h) = Ok s.
Proof.
  intros p s h E (q & H) A. assert (Rs : reachable s) by (exists p; exact E).
  destruct (evaluate_spec s h q Rs H) as [[K _]|[_ (r & Rr & Dr)]]; [exact K|exfalso].
  destruct Dr as (p0 & -> & Ow & NA). apply NA.
  assert (B : borrows (pointed_to p) (objs s) (vars s)).
  { apply (run_borrows (pointed_to p) p start s); auto. split; intros i x; destruct i; discriminate. }
  apply A. refine (reaches_borrow (pointed_to p) s q (Some p0) (proj2 B) _ Rr p0 eq_refl Ow). intros p1 ->. exact (proj1 B _ _ H).
Qed.
