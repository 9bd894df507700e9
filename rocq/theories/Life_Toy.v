(** * A program with shared nodes *)
From Coq Require Import Arith List Bool Lia.
From Verif Require Import Lib_Res Life_Model Life_Spec.
Import ListNotations.

(** a design variable (object 0) on the stack, x = toExpression() (variable 0), a constant (1, variable 1), e = x + c (2, variable 2), f = e * e (3, variable 3), a copy of f (variable 4); then c, e and f go out of scope *)
Definition toy : list op := [NewVariable []; FromPointer 0; NewNode []; NewNode [0; 1]; NewNode [2; 2]; Copy 3; Drop 1; Drop 2; Drop 3].
Definition toy_state : state :=
  mkState [mkObj false true [] 0; mkObj true true [] 1; mkObj true true [Some (mkPtr 0 false); Some (mkPtr 1 true)] 2; mkObj true true [Some (mkPtr 2 true); Some (mkPtr 2 true)] 1]
          [Some (Some (mkPtr 0 false)); None; None; None; Some (Some (mkPtr 3 true))].
Lemma toy_runs : run start toy = Ok toy_state. Proof. reflexivity. Qed.
Lemma toy_reachable : reachable toy_state. Proof. exists toy. exact toy_runs. Qed.
(** the design variable ends before the last expression *)
Definition late : list op := toy ++ [EndVariable 0].
(** everything ends in order *)
Definition full : list op := toy ++ [Drop 4; Drop 0; EndVariable 0].
Definition full_state : state :=
  mkState [mkObj false false [] 0; mkObj true false [] 0; mkObj true false [Some (mkPtr 0 false); Some (mkPtr 1 true)] 0; mkObj true false [Some (mkPtr 2 true); Some (mkPtr 2 true)] 0]
          [None; None; None; None; None].
Lemma full_runs : run start full = Ok full_state. Proof. reflexivity. Qed.

Lemma usable_refuted : ~ (forall p s h, run start p = Ok s -> (exists q, nth_error (vars s) h = Some (Some q)) -> step s (Evaluate h) = Ok s).
Proof.
  intros H. destruct (run start late) as [s| |] eqn:E; [|discriminate E|discriminate E].
  specialize (H late s 4 E). vm_compute in E. injection E as <-. specialize (H (ex_intro _ _ eq_refl)). discriminate.
Qed.
(** a design variable held by a shared_ptr, its expression, and the shared_ptr going out of scope *)
Definition shared : list op := [NewNode []; FromPointer 0; Drop 0].
Lemma shared_refuted : ~ (forall p s h, run start p = Ok s -> (forall hs, ~ In (NewVariable hs) p) -> (exists q, nth_error (vars s) h = Some (Some q)) -> step s (Evaluate h) = Ok s).
Proof.
  intros H. destruct (run start shared) as [s| |] eqn:E; [|discriminate E|discriminate E].
  specialize (H shared s 1 E). vm_compute in E. injection E as <-. assert (N : forall hs, ~ In (NewVariable hs) shared) by (intros hs [K|[K|[K|[]]]]; discriminate).
  specialize (H N (ex_intro _ _ eq_refl)). discriminate.
Qed.
