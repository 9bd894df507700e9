(** * C85: a coordinate frame hands out the quantities of its chain, whatever was asked before

    [chain h i l c]: the frames from i up to the root as they are now (l their addresses, c what each was given relative to its parent); [quantity q c], [getR c]: the expressions of C57 for that chain;
    [tame]: the program names frames that exist, moves none, and assigns only to frames that are nobody's parent; [right_answer]: the getter returned the quantity of the chain as it is now. *)
From Coq Require Import Arith Lia List Bool Reals.
From Verif Require Import Lib_Ring Lib_Real Lib_Res Scalar_Model Geo_Model Geo_Toy Empty_Model Chain_Model Chain_Spec Chain_Toy Frames_Model Frames_Spec Frames_Proofs Frames_Proofs2 Frames_Toy.
Import ListNotations.
Local Open Scope nat_scope.

(** after every tame program, every getter of every frame returns, without undefined behaviour, the quantity of the frame's chain as it is then *)
Theorem C85_getters_partial : forall p o, tame [] (p ++ [o]) -> exists as_ h a h', run [] p = Ok (as_, h) /\ step h o = Ok (a, h') /\ right_answer h o a.
Proof. exact history. Qed.
Print Assumptions C85_getters_partial.
Example C85_getters_case : forall q, tame [] ([NewRoot table; NewChild 0 arm; NewChild 1 slider; Get 2 QV; GetR 1; NewDefault; Assign 3 2; Get 3 QA; NewChild 3 arm] ++ [Get 4 q]).
Proof. exact prog4_tame. Qed.

(** asking changes no chain *)
Theorem C85_asking : forall p i q, tame [] (p ++ [Get i q]) -> forall as_ h a h', run [] p = Ok (as_, h) -> step h (Get i q) = Ok (a, h') -> forall k l c, chain h k l c <-> chain h' k l c.
Proof. exact get_chain. Qed.
Print Assumptions C85_asking.

(** with C57: position and velocity handed out at any point of such a program are the position of the motion and its time derivative *)
Theorem C85_motion_partial : forall p i, tame [] (p ++ [Get i QP]) -> tame [] (p ++ [Get i QV]) ->
  exists as_ h x v h1 h2 l c, run [] p = Ok (as_, h) /\ step h (Get i QP) = Ok (Vector x, h1) /\ step h (Get i QV) = Ok (Vector v, h2) /\ chain h i l c /\
    forall X s ms, Forall2 (follows X s) c ms -> Forall proper ms -> value X s x (posep ms) /\ exists v', value X s v v' /\ velocity (posep ms) v'.
Proof. exact motion_history. Qed.
Print Assumptions C85_motion_partial.
Example C85_motion_case : tame [] (prog4 ++ [Get 4 QP]) /\ tame [] (prog4 ++ [Get 4 QV]) /\ Forall2 (follows toy_kin clock) [slider; arm; table] [slider_m; arm_m; table_m] /\ Forall proper [slider_m; arm_m; table_m].
Proof. exact (conj (prog4_tame QP) (conj (prog4_tame QV) chain3_ex)). Qed.

(** assigning to a frame that has children leaves in them what they have already built *)
Theorem C85_assign_refuted : ~ (forall p i q as_ h a h', run [] p = Ok (as_, h) -> ~ (exists k, In (Move k) p) -> step h (Get i q) = Ok (a, h') -> right_answer h (Get i q) a).
Proof. exact assign_refuted. Qed.
Print Assumptions C85_assign_refuted.
(** moving a frame changes what the getters of its children return *)
Theorem C85_move_refuted : ~ (forall p as_ h k hm i q a h1 a' h2, run [] p = Ok (as_, h) -> step h (Move k) = Ok (Nothing, hm) -> i <> k -> step h (Get i q) = Ok (a, h1) -> step hm (Get i q) = Ok (a', h2) -> a = a').
Proof. exact move_refuted. Qed.
Print Assumptions C85_move_refuted.
(** a parent that is assigned its child becomes its own parent, and its getters never return *)
Theorem C85_cycle_refuted : exists p as_ h, run [] p = Ok (as_, h) /\ ~ (exists k, In (Move k) p) /\ exists i, i < length h /\ forall fuel, getEG fuel QP i h = UB.
Proof. exact cycle_refuted. Qed.
Print Assumptions C85_cycle_refuted.
