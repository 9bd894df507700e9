(** * C62: concrete expressions (examples and the refutation) *)
From Coq Require Import Arith Lia List ZArith NArith Bool Reals Lra.
From Verif Require Import Lib_Ring Lib_Real Lib_Res MatrixStack_Model DesignVar_Base Jacobian_Model Jacobian_Spec Expr_Base Scalar_Model Scalar_Spec Scalar_Proofs2 Scalar_Toy Geo_Model Geo_Spec Geo_Main Geo_Proofs2 Geo_Toy Vars_Model Vars_Spec.
Import ListNotations.
Local Open Scope R_scope.

(* x if x < 2, else y *)
Definition pw : sexpr := SPiece (SVar dx) (SVar dy) (fun s => if Rlt_dec (s 0%nat 0%nat) 2 then true else false).
Definition st5 : state := fun id _ => match id with O => 5 | S O => 2 | _ => 3 end.
Lemma pw_wrong : swf pw /\ sdom pw st5 /\ sget pw st = [dx] /\
  exists ops c, sjac pw st5 = Ok ops /\ jc_run _ sp_addJ 16 (sp_init 1) ops = Ok c /\ In (dv_id dy) (key_ids (jc_store c)) /\ ~ In (dv_id dy) (map (@dv_id R) (sget pw st)) /\ jacobian_entry (jc_store c) dy 0 0 = 1.
Proof.
  assert (N1 : st 0%nat 0%nat < 2) by (cbn; lra). assert (N5 : ~ (st5 0%nat 0%nat < 2)) by (cbn; lra).
  assert (C1 : (if Rlt_dec (st 0%nat 0%nat) 2 then true else false) = true) by (destruct Rlt_dec; [auto|contradiction]).
  assert (C5 : (if Rlt_dec (st5 0%nat 0%nat) 2 then true else false) = false) by (destruct (Rlt_dec (st5 0%nat 0%nat) 2); [contradiction|auto]).
  split; [cbn; auto|]. 
  assert (P : forall d j h, Rabs h < 1 -> ~ (perturb st5 d j h 0%nat 0%nat < 2)).
  { intros d j h H. apply Rabs_def2 in H. unfold perturb, st5. repeat match goal with |- context [if ?b then _ else _] => destruct b end; lra. }
  split; [cbn; split; [destruct (Rlt_dec 5 2); exact I|]; intros d j; exists 1; split; [lra|]; intros h H; destruct (Rlt_dec 5 2); [lra|]; destruct (Rlt_dec (perturb st5 d j h 0%nat 0%nat) 2) as [L|L]; [destruct (P d j h H L)|reflexivity]|]. assert (G : sget pw st = [dx]) by (unfold pw; cbn [sget]; rewrite C1; reflexivity). split; [exact G|]. rewrite G.
  assert (J : sjac pw st5 = Ok [CAddId dy]) by (unfold pw; cbn [sjac]; rewrite C5; reflexivity). rewrite J. eexists. eexists. split; [reflexivity|]. split; [reflexivity|]. split; [cbn; auto|]. split; [cbn; intuition lia|]. cbn. ring.
Qed.
(* st with a fourth variable changed *)
Definition st9 : state := fun id k => if (id =? 9)%nat then 7 else st id k.
Lemma ex1_reported : exists ops c, sjac ex1 st = Ok ops /\ jc_run _ sp_addJ 16 (sp_init 1) ops = Ok c /\ In dp (sget ex1 st).
Proof.
  destruct ex1_hyps as (H1 & H2 & H3 & H4 & H5 & _). destruct (scalar_jacobian ex1 st 16 H1 H2 H3 H4 H5) as (v & ops & c & _ & J & C & _). exists ops, c. split; auto. split; auto. cbn. auto.
Qed.
Lemma ex2_reported : exists ops c, vjac ex2 st = Ok ops /\ jc_run _ sp_addJ 16 (sp_init (vsize ex2)) ops = Ok c /\ In dp (vget ex2 st).
Proof.
  destruct ex2_hyps as (H1 & H2 & H4 & H5 & _). destruct (vector_jacobian ex2 st 16 H1 H2 ltac:(lia) H4 H5) as (v & ops & c & _ & J & C & _). exists ops, c. split; auto. split; auto. cbn. auto.
Qed.
Lemma ex3_reported : exists ops c, gjac ex3 st = Ok ops /\ jc_run _ sp_addJ 16 (sp_init 1) ops = Ok c /\ In dx (gget ex3).
Proof.
  destruct ex3_hyps as (H1 & H2 & H4 & H5 & _). destruct (generic_jacobian ex3 st 16 H1 H2 ltac:(lia) H4 H5) as (v & ops & c & _ & J & C & _). exists ops, c. split; auto. split; auto. cbn. auto.
Qed.
Lemma ex_agree : agree (sget ex1 st) st st9 /\ agree (vget ex2 st) st st9 /\ agree (gget ex3) st st9 /\ st9 9%nat 0%nat <> st 9%nat 0%nat.
Proof. split; [|split; [|split]]; try (intros d H; cbn in H; repeat (destruct H as [<-|H]; [reflexivity|]); contradiction). cbn. lra. Qed.
Lemma pw_conds : agree (sget pw st) st st9 /\ Forall (fun u => u st = u st9) (sconds pw).
Proof. split; [|constructor; [reflexivity|constructor]]. intros d H. cbn in H. destruct Rlt_dec; repeat (destruct H as [<-|H]; [reflexivity|]); contradiction. Qed.
Definition toy_st9 : state := fun id k => if (id =? 9)%nat then 7 else toy_st id k.
Lemma toy_v_reported : (exists ops c, vxjac toy_kin toy_v toy_st = Ok ops /\ jc_run _ sp_addJ 16 (sp_init (vxsize toy_v)) ops = Ok c) /\ In gM (vxget toy_v) /\ In gD (vxget toy_v) /\
  (forall id B, toy_kinds id = KMat 0 B -> toy_st id = toy_st9 id) /\ vxwf toy_kinds toy_v /\ agree (vxget toy_v) toy_st toy_st9 /\ toy_st9 9%nat <> toy_st 9%nat.
Proof.
  destruct toy_v_hyps as (H1 & H2 & H3 & H4 & H5 & H6 & _).
  destruct (vector_geo toy_kin (fun _ => True) toy_kinds toy_st 16 H1 H2 ltac:(lia) toy_v H3 H4 H5 H6) as (v & ops & c & _ & J & C & _).
  split; [exists ops, c; auto|]. split; [cbn; auto 20|]. split; [cbn; auto 20|]. split; [|split; [exact H3|split]].
  - intros id B K. destruct id as [|[|[|[|[|[|id]]]]]]; discriminate.
  - intros d H. cbn in H. repeat (destruct H as [<-|H]; [reflexivity|]). contradiction.
  - intros E. apply (f_equal (fun f => f 0%nat)) in E. cbn in E. lra.
Qed.
