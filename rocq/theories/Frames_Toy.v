(** * Coordinate frames as objects: concrete programs *)
From Coq Require Import Arith Lia List Bool Reals Lra.
From Verif Require Import Lib_Ring Lib_Real Lib_Res Scalar_Model Geo_Model Geo_Toy Empty_Model Chain_Model Chain_Spec Chain_Proofs Chain_Toy Frames_Model Frames_Spec Frames_Proofs Frames_Proofs2.
Import ListNotations.
Local Open Scope nat_scope.

(* a turntable, an arm on it, a slider on the arm; some getters; a fourth frame that becomes a copy of the slider *)
Definition prog4 : list fop := [NewRoot table; NewChild 0 arm; NewChild 1 slider; Get 2 QV; GetR 1; NewDefault; Assign 3 2; Get 3 QA; NewChild 3 arm].
Ltac tm := repeat (match goal with
  | |- tame _ [] => exact Logic.I
  | |- tame _ (_ :: _) => split; [cbn; repeat split; try lia; try (intros k x E; do 9 (destruct k as [|k]; [cbn in E; first [discriminate E|injection E as <-; cbn; discriminate]|]); cbn in E; first [discriminate E|destruct k; discriminate E])|]
  | |- forall a h', step _ _ = _ -> _ => let E := fresh in intros ? ? E; cbn in E; injection E as <- <- end).
Lemma prog4_tame : forall q, tame [] (prog4 ++ [Get 4 q]).
Proof.
  intros q. cbn [prog4 app]. tm. intros; exact Logic.I.
Qed.

(* a frame keeps what it has built when its parent is replaced *)
Definition frame_at (p : vec R) : frame := Build_frame HNull (HNode (VxConst 3 p)) HNull HNull HNull HNull.
Definition stale : list fop := [NewRoot (frame_at e1); NewChild 0 (frame_at e1); Get 1 QP; NewRoot (frame_at e3); Assign 0 2].
Lemma e13 : e1 <> e3. Proof. intros E. assert (H := f_equal (fun v => v 0) E). cbn in H. lra. Qed.
Lemma assign_refuted : ~ (forall p i q as_ h a h', run [] p = Ok (as_, h) -> ~ (exists k, In (Move k) p) -> step h (Get i q) = Ok (a, h') -> right_answer h (Get i q) a).
Proof.
  intros H. destruct (run [] stale) as [[as_ h]| |] eqn:E; try discriminate E. cbn in E. injection E as <- <-.
  edestruct (H stale 1 QP) as (l & c & C & A); [reflexivity|intros (k & K); cbn in K; intuition discriminate|reflexivity|].
  cbn in C, A. inversion C as [? o E P|? o p l2 c2 E P C2]; subst; cbn in E; injection E as <-; [discriminate P|]. injection P as <-.
  inversion C2 as [? o E P|? o p l3 c3 E P C3]; subst; cbn in E; injection E as <-; [|discriminate P]. cbn in A. injection A as A. apply e13. exact A.
Qed.
(* a frame whose parent has been moved from has lost the parent's position *)
Definition moving : list fop := [NewRoot (frame_at e1); NewChild 0 (frame_at e3); NewChild 1 (frame_at e1)].
Lemma move_refuted : ~ (forall p as_ h k hm i q a h1 a' h2, run [] p = Ok (as_, h) -> step h (Move k) = Ok (Nothing, hm) -> i <> k -> step h (Get i q) = Ok (a, h1) -> step hm (Get i q) = Ok (a', h2) -> a = a').
Proof.
  intros H. specialize (H moving _ _ 1 _ 2 QP _ _ _ _ eq_refl eq_refl ltac:(lia) eq_refl eq_refl). cbn in H. discriminate H.
Qed.
(* a frame that becomes its own parent *)
Definition looping : list fop := [NewRoot (frame_at e1); NewChild 0 (frame_at e3); Assign 0 1].
Lemma cycle_refuted : exists p as_ h, run [] p = Ok (as_, h) /\ ~ (exists k, In (Move k) p) /\ exists i, i < length h /\ forall fuel, getEG fuel QP i h = UB.
Proof.
  exists looping. eexists; eexists. split; [reflexivity|]. split; [intros (k & K); cbn in K; intuition discriminate|]. exists 0. split; [cbn; lia|].
  induction fuel as [|f IH]; [reflexivity|]. cbn [getEG nth_error o_parent o_global sel fp isEmpty noframe upd app]. unfold thenM at 1. cbn in IH |- *. rewrite IH. reflexivity.
Qed.
