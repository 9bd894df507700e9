(** * Coordinate frames as objects: programs *)
From Coq Require Import Arith Lia List Bool Reals.
From Verif Require Import Lib_Ring Lib_Real Lib_Res Scalar_Model Geo_Model Empty_Model Chain_Model Chain_Spec Chain_Proofs Frames_Model Frames_Spec Frames_Proofs.
Import ListNotations.
Local Open Scope nat_scope.

Definition good (h : list fobj) : Prop := (forall i, i < length h -> exists l c, chain h i l c) /\ kept h.
Lemma good_nil : good []. Proof. split; [cbn; intros; lia|]. intros i l c o C. destruct (chain_here _ _ _ _ C) as [x X]. destruct i; discriminate. Qed.
Lemma good_same : forall h h', good h -> same h h' -> kept h' -> good h'.
Proof. intros h h' [G _] S0 K. split; auto. intros i L. destruct S0 as [Len S1]. destruct (G i) as (l & c & C); [lia|]. exists l, c. eapply same_chain; eauto. split; auto. Qed.

Lemma chain_app : forall h x i l c, chain h i l c -> chain (h ++ x) i l c.
Proof. induction 1 as [i o E P|i o p l c E P H IH]; [apply chain_root; auto|eapply chain_up; eauto]; rewrite nth_error_app1; auto; apply nth_error_Some; congruence. Qed.
Lemma nth_last : forall A (h : list A) x, nth_error (h ++ [x]) (length h) = Some x.
Proof. intros. rewrite nth_error_app2 by lia. rewrite Nat.sub_diag. reflexivity. Qed.
Lemma good_new : forall h x l0 c0, good h -> chain (h ++ [x]) (length h) l0 c0 -> ((o_parent x = None /\ o_global x = o_local x) \/ (o_parent x <> None /\ o_global x = noframe)) -> good (h ++ [x]).
Proof.
  intros h x l0 c0 [G K] C0 X. split.
  - intros i L. rewrite app_length in L. cbn in L. destruct (Nat.eq_dec i (length h)) as [->|N]; [eauto|]. destruct (G i) as (l & c & C); [lia|]. exists l, c. apply chain_app; auto.
  - intros i l c o C E. destruct (Nat.eq_dec i (length h)) as [->|N].
    + rewrite nth_last in E. injection E as <-. destruct X as [[P Q]|[P Q]]; rewrite Q.
      * split; auto. inversion C as [? o' E' P'|? o' p l2 c2 E' P' C2]; subst; rewrite nth_last in E'; injection E' as <-; [|congruence]. split; [right; reflexivity|]. intros q. right. destruct q; reflexivity.
      * split; [contradiction|]. split; [left; reflexivity|]. intros q. left. destruct q; reflexivity.
    + assert (L : i < length h) by (assert (i < length (h ++ [x])) by (apply nth_error_Some; congruence); rewrite app_length in *; cbn in *; lia).
      destruct (G i L) as (l1 & c1 & C1). destruct (chain_det _ _ _ _ (chain_app _ [x] _ _ _ C1) _ _ C) as [<- <-]. rewrite nth_error_app1 in E by auto. exact (K _ _ _ _ C1 E).
Qed.
Lemma chain_avoid : forall h i o, (forall k x, nth_error h k = Some x -> o_parent x <> Some i) -> forall k l c, chain h k l c -> k <> i -> chain (upd h i o) k l c.
Proof.
  intros h i o NP. induction 1 as [k x E P|k x p l c E P H IH]; intros N.
  - apply chain_root; auto. rewrite nth_error_upd_other; auto.
  - eapply chain_up; eauto; [rewrite nth_error_upd_other; auto|]. apply IH. intros ->. exact (NP _ _ E P).
Qed.
Lemma good_assign : forall h i j o, good h -> i < length h -> nth_error h j = Some o -> (forall k x, nth_error h k = Some x -> o_parent x <> Some i) -> good (upd h i o).
Proof.
  intros h i j o [G K] Li Ej NP. assert (Lj : j < length h) by (apply nth_error_Some; congruence).
  assert (Ci : forall l c, chain h j l c -> exists l', chain (upd h i o) i l' c).
  { intros l c C. inversion C as [? o' E' P'|? o' p l2 c2 E' P' C2]; subst; assert (o' = o) by congruence; subst o'.
    - eexists. apply chain_root; auto. apply nth_error_upd_same; auto.
    - eexists. eapply chain_up; eauto; [apply nth_error_upd_same; auto|]. apply chain_avoid; eauto. intros ->. exact (NP _ _ Ej P'). }
  split.
  - intros k L. rewrite upd_length in L. destruct (Nat.eq_dec k i) as [->|N].
    + destruct (G j Lj) as (l & c & C). destruct (Ci _ _ C) as [l' C']. eauto.
    + destruct (G k L) as (l & c & C). exists l, c. apply chain_avoid; auto.
  - intros k l c y C E. destruct (Nat.eq_dec k i) as [->|N].
    + rewrite nth_error_upd_same in E by auto. injection E as <-. destruct (G j Lj) as (l1 & c1 & C1). destruct (Ci _ _ C1) as [l' C']. destruct (chain_det _ _ _ _ C' _ _ C) as [_ <-]. exact (K _ _ _ _ C1 Ej).
    + assert (L : k < length h) by (rewrite <- (upd_length _ h i o); apply nth_error_Some; congruence). destruct (G k L) as (l1 & c1 & C1).
      destruct (chain_det _ _ _ _ (chain_avoid _ _ o NP _ _ _ C1 N) _ _ C) as [<- <-]. rewrite nth_error_upd_other in E by auto. exact (K _ _ _ _ C1 E).
Qed.

Lemma step_good : forall h o, good h -> allowed h o -> exists a h', step h o = Ok (a, h') /\ good h' /\ right_answer h o a.
Proof.
  intros h o Gh A. destruct o as [|l|p l|i|i j|i|i q]; cbn [allowed] in A; cbn [step right_answer].
  - eexists; eexists; split; [reflexivity|split; [|reflexivity]]. eapply good_new; [exact Gh| |left; split; reflexivity]. eapply chain_root; [apply nth_last|reflexivity].
  - eexists; eexists; split; [reflexivity|split; [|reflexivity]]. eapply good_new; [exact Gh| |left; split; reflexivity]. eapply chain_root; [apply nth_last|reflexivity].
  - destruct (nth_error h p) eqn:E; [|apply nth_error_None in E; lia]. eexists; eexists; split; [reflexivity|split; [|reflexivity]].
    destruct Gh as [G K]. destruct (G p A) as (lp & cp & Cp). eapply good_new; [split; eassumption| |right; split; [discriminate|reflexivity]].
    eapply chain_up; [apply nth_last|reflexivity|]. apply chain_app; eassumption.
  - contradiction.
  - destruct A as (Li & Lj & NP). destruct (nth_error h i) eqn:Ei; [|apply nth_error_None in Ei; lia]. destruct (nth_error h j) as [oj|] eqn:Ej; [|apply nth_error_None in Ej; lia].
    eexists; eexists; split; [reflexivity|split; [|reflexivity]]. eapply good_assign; eauto.
  - destruct Gh as [G K]. destruct (G i A) as (l & c & C). destruct (getRG_gives l c (length h) h i C) as (h' & E & S0 & K'); auto; [assert (W := chain_len _ _ _ _ C); lia|].
    rewrite E. cbn. eexists; eexists; split; [reflexivity|split]; [eapply good_same; eauto; split; auto|]. eauto.
  - destruct Gh as [G K]. destruct (G i A) as (l & c & C). destruct (getEG_gives l c q (length h) h i C) as (h' & E & S0 & K'); auto; [assert (W := chain_len _ _ _ _ C); lia|].
    rewrite E. cbn. eexists; eexists; split; [reflexivity|split]; [eapply good_same; eauto; split; auto|]. eauto.
Qed.
(* every getter in a tame program returns the quantity of the frames as they are then *)
Lemma run_good : forall p h, good h -> tame h p -> exists as_ h', run h p = Ok (as_, h') /\ good h'.
Proof.
  induction p as [|o p IH]; intros h G T; cbn [run]; [eauto|]. destruct T as [A T]. destruct (step_good h o G A) as (a & h1 & E & G1 & _). rewrite E. cbn.
  destruct (IH h1 G1 (T _ _ E)) as (as_ & h2 & R2 & G2). rewrite R2. cbn. eauto.
Qed.
Lemma tame_app : forall p h r as_ h', tame h (p ++ r) -> run h p = Ok (as_, h') -> tame h' r.
Proof.
  induction p as [|o p IH]; intros h r as_ h' T Rn; cbn in *; [injection Rn as <- <-; exact T|]. destruct T as [A T].
  destruct (step h o) as [[a h1]| |] eqn:E; cbn in Rn; try discriminate. destruct (run h1 p) as [[as1 h2]| |] eqn:E2; cbn in Rn; try discriminate. injection Rn as <- <-. eapply IH; eauto.
Qed.
Lemma tame_pre : forall p h r, tame h (p ++ r) -> tame h p.
Proof. induction p as [|o p IH]; intros h r T; cbn in *; auto. destruct T as [A T]. split; auto. intros a h' E. eapply IH; eauto. Qed.
Lemma history : forall p o, tame [] (p ++ [o]) -> exists as_ h a h', run [] p = Ok (as_, h) /\ step h o = Ok (a, h') /\ right_answer h o a.
Proof.
  intros p o T. destruct (run_good p [] good_nil (tame_pre _ _ _ T)) as (as_ & h & Rn & G). destruct (tame_app _ _ _ _ _ T Rn) as [A _]. destruct (step_good h o G A) as (a & h' & E & _ & Ra). eauto 9.
Qed.
(* the getters change no frame's place in its chain *)
Lemma get_chain : forall p i q, tame [] (p ++ [Get i q]) -> forall as_ h a h', run [] p = Ok (as_, h) -> step h (Get i q) = Ok (a, h') -> forall k l c, chain h k l c <-> chain h' k l c.
Proof.
  intros p i q T as_ h a h' Rn E k l c. destruct (run_good p [] good_nil (tame_pre _ _ _ T)) as (as2 & h2 & Rn2 & G). assert (h2 = h) by congruence. subst h2.
  destruct (tame_app _ _ _ _ _ T Rn) as [A _]. destruct G as [G K]. destruct (G i A) as (l0 & c0 & C). destruct (getEG_gives l0 c0 q (length h) h i C) as (h1 & E1 & S0 & K'); auto; [assert (W := chain_len _ _ _ _ C); lia|].
  cbn [step] in E. rewrite E1 in E. cbn in E. injection E as <- <-. split; apply same_chain; auto. apply same_back; auto.
Qed.
(* with C57: position and velocity handed out at any time are the ones of the motion *)
Lemma motion_history : forall p i, tame [] (p ++ [Get i QP]) -> tame [] (p ++ [Get i QV]) -> exists as_ h x v h1 h2 l c, run [] p = Ok (as_, h) /\ step h (Get i QP) = Ok (Vector x, h1) /\ step h (Get i QV) = Ok (Vector v, h2) /\ chain h i l c /\
  forall X s ms, Forall2 (follows X s) c ms -> Forall proper ms -> value X s x (posep ms) /\ exists v', value X s v v' /\ velocity (posep ms) v'.
Proof.
  intros p i T1 T2. destruct (history _ _ T1) as (as1 & h & a1 & h1 & R1 & E1 & l & c & C & A1). destruct (history _ _ T2) as (as2 & h' & a2 & h2 & R2 & E2 & l' & c' & C' & A2).
  assert (h' = h) by congruence. subst h'. destruct (chain_det _ _ _ _ C _ _ C') as [<- <-]. subst a1 a2. exists as1, h, (getP c), (getV c), h1, h2, l, c. repeat (split; auto).
  - apply (chain_position X s c ms); auto.
  - apply (chain_position X s c ms); auto.
Qed.
