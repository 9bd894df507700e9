From Coq Require Import String Ascii ZArith Reals List Bool Lra Lia.
From Verif Require Import Lib_Res Conf_Model Conf_Spec Conf_Proofs.
Import ListNotations.
Local Open Scope string_scope.
Local Open Scope R_scope.

Lemma base_restores : restores base_members.
Proof. intros [] []. reflexivity. Qed.
Lemma ls_restores : restores ls_members.
Proof. intros [] []. reflexivity. Qed.
Lemma rprop_restores : restores rprop_members.
Proof. intros [[] ? ? ? ? ? ? ? ?] [[] ? ? ? ? ? ? ? ?]. reflexivity. Qed.
Lemma bfgs_restores : restores bfgs_members.
Proof. intros [[] [] ? ?] [[] [] ? ?]. reflexivity. Qed.

Lemma rprop_stays : forall o s ops, rprop_new o = Ok s -> Forall rprop_arg ops -> rprop_valid (fold_left rprop_do ops s).
Proof.
  intros o s ops E F. assert (V : rprop_valid s).
  { unfold rprop_new in E. destruct (rprop_check o) eqn:C; cbn in E; [|discriminate]. injection E as <-. apply rprop_check_iff; exact C. }
  clear E. revert s V. induction F as [|p ops Hp F IH]; intros s V; cbn [fold_left]; [exact V|]. apply IH.
  destruct p; cbn in *; [exact Hp|]. destruct V as (_ & V). split; [exact Hp|exact V].
Qed.
Lemma bfgs_stays : forall o s ops, bfgs_new o = Ok s -> Forall bfgs_arg ops -> bfgs_valid (bo_opts (fold_left bfgs_do ops s)).
Proof.
  intros o s ops E F. assert (V : bfgs_valid (bo_opts s)).
  { unfold bfgs_new in E. destruct (ls_check (b_ls o)) eqn:C1; cbn in E; [|discriminate]. destruct (bfgs_check o) eqn:C; cbn in E; [|discriminate].
    injection E as <-. apply bfgs_check_iff; exact C. }
  clear E. revert s V. induction F as [|p ops Hp F IH]; intros s V; cbn [fold_left]; [exact V|]. apply IH.
  destruct p; cbn in *; [exact Hp|]. destruct V as (_ & V). split; [exact Hp|exact V].
Qed.

Lemma bfgs_search : forall o s ops, bfgs_new o = Ok s -> bo_search (fold_left bfgs_do ops s) = b_ls (bo_opts (fold_left bfgs_do ops s)).
Proof.
  intros o s ops E. assert (V : bo_search s = b_ls (bo_opts s)).
  { unfold bfgs_new in E. destruct (ls_check (b_ls o)); cbn in E; [|discriminate]. destruct (bfgs_check o); cbn in E; [|discriminate]. injection E as <-. reflexivity. }
  clear E. revert s V. induction ops as [|p ops IH]; intros s V; cbn [fold_left]; [exact V|]. apply IH. destruct p; cbn; [reflexivity|exact V].
Qed.
Lemma bfgs_last : forall s ops o, bo_opts (fold_left bfgs_do (ops ++ [BSet o])%list s) = o.
Proof. intros. rewrite fold_left_app. reflexivity. Qed.
Lemma bfgs_last_base : forall s ops b, let s1 := fold_left bfgs_do ops s in let s2 := fold_left bfgs_do (ops ++ [BSetBase b])%list s in
  b_base (bo_opts s2) = b /\ b_ls (bo_opts s2) = b_ls (bo_opts s1) /\ b_dense (bo_opts s2) = b_dense (bo_opts s1) /\ b_reg (bo_opts s2) = b_reg (bo_opts s1).
Proof. intros s ops b s1 s2. unfold s2. rewrite fold_left_app. fold s1. cbn. auto. Qed.

Lemma exists_last_or : forall A (l : list A), l = [] \/ exists l' x, l = (l' ++ [x])%list.
Proof. intros A l. induction l as [|x l _] using rev_ind; [left; reflexivity|right; exists l, x; reflexivity]. Qed.
Lemma hmc_step : forall o l, let s := fold_left hmc_set l (hmc_new o) in ho_step s = h_step0 (ho_opts s) /\ ho_opts s = last l o.
Proof.
  intros o l. cbn zeta. destruct (exists_last_or _ l) as [->|(l' & x & ->)].
  - split; reflexivity.
  - rewrite fold_left_app, last_last. split; reflexivity.
Qed.

Lemma new_in_step : forall o, in_step (opt2_new o).
Proof.
  intros o. unfold in_step, opt2_new. cbn [oo_opts oo_solver oo_policy]. unfold pick_solver.
  destruct (o_solver o) as [sv|]; (split; [intros q Hq; congruence|]); (split; [intros E; congruence|]); unfold pick_policy; destruct (o_policy o) as [pl|];
    cbn [pt_name];
    repeat match goal with |- context [(?a =? ?b)%string] => let E := fresh "E" in destruct (String.eqb_spec a b) as [E|E]; cbn [andb] end;
    try congruence; repeat split; intros; try congruence; cbn [pt_name]; try congruence; try discriminate;
    try (match goal with H : Some ?a = Some ?b |- _ => injection H as <- end; auto).
Qed.
Lemma set_keeps : forall s o, oo_solver (opt2_do s (OSet o)) = oo_solver s /\ oo_policy (opt2_do s (OSet o)) = oo_policy s.
Proof. intros; split; reflexivity. Qed.

(** any history of setters and initialisations that ends with an initialisation *)
Lemma init_in_step : forall s ops, in_step (fold_left opt2_do (ops ++ [OInit])%list s).
Proof. intros. rewrite fold_left_app. apply new_in_step. Qed.
Lemma base_in_step : forall s b, in_step s -> in_step (opt2_do s (OSetBase b)).
Proof. intros s b H. exact H. Qed.
Lemma no_set_in_step : forall o ops, (forall o', ~ In (OSet o') ops) -> in_step (fold_left opt2_do ops (opt2_new o)).
Proof.
  intros o ops. pose proof (new_in_step o) as H. revert H. generalize (opt2_new o) as s. induction ops as [|p ops IH]; intros s H N; cbn [fold_left]; [exact H|].
  apply IH; [|intros o' I; exact (N o' (or_intror I))].
  destruct p as [o'|b|]; [exfalso; exact (N o' (or_introl eq_refl))|exact H|apply new_in_step].
Qed.
Lemma rprop_last : forall s ops, 
  (forall o, fold_left rprop_do (ops ++ [RSet o])%list s = o) /\
  (forall b, let s1 := fold_left rprop_do ops s in fold_left rprop_do (ops ++ [RSetBase b])%list s =
     mkRprop b (etaMinus s1) (etaPlus s1) (delta0 s1) (deltaMin s1) (deltaMax s1) (r_dense s1) (r_reg s1) (r_method s1)).
Proof. intros s ops. split; intros; cbn zeta; rewrite fold_left_app; reflexivity. Qed.
(* an archive of something else *)
Lemma load_other : forall O (l : list (member O)) a o, map mb_name l <> firstn (length l) (map fst a) -> load l a o = Throw.
Proof.
  induction l as [|m l IH]; intros a o H; cbn in *; [contradiction|]. destruct a as [|[k v] a]; auto. cbn in H. destruct (k =? mb_name m)%string eqn:E; auto. apply String.eqb_eq in E as ->.
  apply IH. intros W. apply H. rewrite W. auto.
Qed.
