(** * Concrete scalar expressions, used as examples next to the theorems *)
From Coq Require Import Arith Lia List ZArith NArith Bool Reals Lra.
From Verif Require Import Lib_Ring Lib_Real Lib_Res MatrixStack_Model MatrixStack_Spec DesignVar_Base Jacobian_Model Jacobian_Spec Expr_Base Scalar_Model Scalar_Spec Scalar_Calc Scalar_Proofs Scalar_Proofs2.
Import ListNotations.
Local Open Scope R_scope.

Definition dx : dvr := mkDv 0%nat true 0%Z 0%Z 1%nat 1.
Definition dy : dvr := mkDv 1%nat true 1%Z 1%Z 1%nat 1.
Definition dp : dvr := mkDv 2%nat true 2%Z 2%Z 3%nat 1.
(* x = 1, y = 2, p = (3, 3, 3) *)
Definition st : state := fun id _ => match id with O => 1 | S O => 2 | _ => 3 end.
(* atan2(x * (p + (x, exp y, 2))[1], sqrt(x / y)) *)
Definition ex1 : sexpr :=
  SAtan2 (SMul (SVar dx) (SComp (VAdd (VVar dp) (VStack (SCons (SVar dx) (SCons (SExp (SVar dy)) (SCons (SConst 2) SNil))))) 1)) (SSqrt (SDiv (SVar dx) (SVar dy))).
Lemma ex1_wf : swf ex1.
Proof. cbn. repeat split; auto; lia. Qed.
Lemma ex1_dom : sdom ex1 st.
Proof.
  cbn. assert (Q : forall y : R, Ok 2 = Ok y -> y <> 0) by (intros y E; injection E as <-; lra). repeat split; auto.
  - intros x. rewrite fdiv_ok by lra. intros E. injection E as <-. lra.
  - intros x y E1. rewrite fdiv_ok by lra. cbn [bind]. unfold need_pos. destruct Rlt_dec; [|lra]. cbn [bind]. intros E. injection E as <-. right. apply sqrt_lt_R0. lra.
Qed.
Lemma wf3 : wf_dvs [dx; dy; dp].
Proof.
  repeat split.
  - intros d d' H H'. cbn in H, H'. repeat (destruct H as [<-|H]; [|]); repeat (destruct H' as [<-|H']; [|]); try contradiction; cbn; intros; try discriminate; auto.
  - intros d H _. cbn in H. repeat (destruct H as [<-|H]; [cbn; lia|]). contradiction.
  - intros d d' H H'. cbn in H, H'. repeat (destruct H as [<-|H]; [|]); repeat (destruct H' as [<-|H']; [|]); try contradiction; cbn; intros; try discriminate; auto.
Qed.
Lemma ex1_dvs : wf_dvs (sdvs ex1).
Proof. apply (wf_sub [dx; dy; dp]); [apply wf3|]. intros x H. cbn in H. cbn. intuition auto. Qed.
Lemma ex1_hyps : swf ex1 /\ sdom ex1 st /\ (0 < 16)%nat /\ stack_room 1 16 (swidth ex1) (sdepth ex1) /\ wf_dvs (sdvs ex1) /\ In dp (sdvs ex1) /\ dv_active dp = true.
Proof. split; [apply ex1_wf|]. split; [apply ex1_dom|]. split; [lia|]. split; [split; [reflexivity|split; reflexivity]|]. split; [apply ex1_dvs|]. split; [cbn; auto|reflexivity]. Qed.
(* p * y + (x, y, 5) *)
Definition ex2 : vexpr := VAdd (VScale (VVar dp) (SVar dy)) (VStack (SCons (SVar dx) (SCons (SVar dy) (SCons (SConst 5) SNil)))).
Lemma ex2_hyps : vwf ex2 /\ vdom ex2 st /\ stack_room (vsize ex2) 16 (vwidth ex2) (vdepth ex2) /\ wf_dvs (vdvs ex2) /\ In dp (vdvs ex2).
Proof.
  split; [cbn; auto 10|]. split; [cbn; auto 10|]. split; [split; [reflexivity|split; reflexivity]|]. split; [|cbn; auto].
  apply (wf_sub [dx; dy; dp]); [apply wf3|]. intros x H. cbn in H. cbn. intuition auto.
Qed.

(* x / y as a generic scalar expression *)
Definition quot : gexpr := GDiv (GVar dx) (GVar dy).
Lemma quot_wrong : gwf quot /\ gdom quot st /\ stack_room 1 16 1 (gdepth quot) /\ wf_dvs (gdvs quot) /\
  exists ops c, gjac quot st = Ok ops /\ jc_run _ sp_addJ 16 (sp_init 1) ops = Ok c /\
    jacobian_entry (jc_store c) dx 0 0 = - 1 / 4 /\ partial (gval quot) st dx 0 (1 / 2) /\ jacobian_entry (jc_store c) dy 0 0 = 1 / 2 /\ partial (gval quot) st dy 0 (- 1 / 4).
Proof.
  split; [cbn; auto|]. split; [cbn; repeat split; auto; intros y E; injection E as <-; lra|]. split; [split; [reflexivity|split; reflexivity]|].
  assert (W : wf_dvs (gdvs quot)). { apply (wf_sub [dx; dy; dp]); [apply wf3|]. intros x H. cbn in H. cbn. intuition auto. }
  split; auto.
  assert (E : gjac quot st = Ok (scope (CApplyS (- 1 / (2 * 2))) [CAddId dx] ++ scope (CApplyS (1 / 2)) [CAddId dy])).
  { cbn [gjac quot gval bind st dv_id dx dy]. rewrite fdiv_ok by lra. cbn [bind]. rewrite fdiv_ok by lra. reflexivity. }
  rewrite E. destruct (contributes_entry 1 1 1 _ _ 16 (gdvs quot) (conA 1 1 1 _ _ _ _ (conS 1 1 0 [CAddId dx] _ (- 1 / (2 * 2)) (le_n _) (conV 1 0 dx)) (conS 1 1 0 [CAddId dy] _ (1 / 2) (le_n _) (conV 1 0 dy)))) as (c & Er & _ & En); auto; try lia.
  { apply stack_room_room. split; [reflexivity|split; reflexivity]. }
  assert (V1 : forall d, gval (GVar dx) (perturb st d 0 0) = Ok 1) by (intros; cbn [gval]; rewrite pert0; auto). assert (V2 : forall d, gval (GVar dy) (perturb st d 0 0) = Ok 2) by (intros; cbn [gval]; rewrite pert0; auto).
  assert (DV : forall d d', rder (fun h => gval (GVar d) (perturb st d' 0 h)) 0 (if (dv_id d =? dv_id d')%nat then 1 else 0)).
  { intros d d'. cbn [gval]. apply rder_total. unfold perturb. destruct (Nat.eqb_spec (dv_id d) (dv_id d')); cbn [andb]; [|apply der_const]. cbn. apply (der_eq _ _ (0 + 1)); [ring|]. apply der_plus; [apply der_const|apply der_id]. }
  exists (scope (CApplyS (- 1 / (2 * 2))) [CAddId dx] ++ scope (CApplyS (1 / 2)) [CAddId dy]), c. split; auto. split; [exact Er|]. repeat split.
  - rewrite entry_R, En by (cbn; auto). cbn. lra.
  - unfold partial. cbn [gval quot]. eapply rder_eq; [|apply (rd_div (fun h => gval (GVar dx) (perturb st dx 0 h)) (fun h => gval (GVar dy) (perturb st dx 0 h)) 0 _ _ 1 2 (DV dx dx) (DV dy dx) (V1 dx) (V2 dx)); lra]. cbn. lra.
  - rewrite entry_R, En by (cbn; auto). cbn. lra.
  - unfold partial. cbn [gval quot]. eapply rder_eq; [|apply (rd_div (fun h => gval (GVar dx) (perturb st dy 0 h)) (fun h => gval (GVar dy) (perturb st dy 0 h)) 0 _ _ 1 2 (DV dx dy) (DV dy dy) (V1 dy) (V2 dy)); lra]. cbn. lra.
Qed.
(* x * y - (-x) *)
Definition ex3 : gexpr := GSub (GMul (GVar dx) (GVar dy)) (GNeg (GCast (GVar dx))).
Lemma ex3_hyps : gwf ex3 /\ no_division ex3 /\ stack_room 1 16 1 (gdepth ex3) /\ wf_dvs (gdvs ex3) /\ In dx (gdvs ex3).
Proof. split; [cbn; auto|]. split; [cbn; auto|]. split; [split; [reflexivity|split; reflexivity]|]. split; [|cbn; auto]. apply (wf_sub [dx; dy; dp]); [apply wf3|]. intros x H. cbn in H. cbn. intuition auto. Qed.

(* x^0 at x = 0 *)
Definition st0 : state := fun _ _ => 0.
Lemma power_zero : sval (SPow (SVar dx) 0) st0 = Ok 1 /\ partial (sval (SPow (SVar dx) 0)) st0 dx 0 0 /\ sjac (SPow (SVar dx) 0) st0 = UB.
Proof.
  split; [|split].
  - cbn. unfold fpow. destruct Req_EM_T; reflexivity.
  - unfold partial. apply (rder_ext (fun _ => Ok 1)); [|apply rder_total, der_const]. intros y. cbn. unfold fpow. destruct Req_EM_T; reflexivity.
  - cbn. unfold fpow. destruct Req_EM_T; [reflexivity|exfalso; apply n; reflexivity].
Qed.
(* acosSquared just below one: x = 1 - 1e-9 *)
Definition near1 : R := 1 - 1 / 1000000000.
Lemma acosSq_wrong : forall s, 0 < 1 - s (dv_id dx) 0%nat -> (s (dv_id dx) 0%nat - 1) * (s (dv_id dx) 0%nat - 1) < eps ->
  exists f l, sjac (SAcosSq (SVar dx)) s = Ok [CApplyS f; CAddId dx; CEnd] /\ partial (sval (SAcosSq (SVar dx))) s dx 0 l /\ f <> l /\ Rabs (f - l) <= 4 * (1 - s (dv_id dx) 0%nat).
Proof.
  intros s H1 H2. set (x := s (dv_id dx) 0%nat) in *. assert (E : eps < 1 / 4) by (unfold eps; lra). assert (Hx : 1 / 2 <= x < 1) by nra.
  destruct (acosSq_series x Hx) as (L1 & L2). exists (-2 + 2 / 3 * (x - 1)), (-2 * acos x / sqrt (1 - x * x)). split; [|split; [|split]].
  - cbn [sjac sval bind]. fold x. destruct Rlt_dec; [reflexivity|contradiction].
  - unfold partial. eapply rder_eq; [|cbn [sval]; eapply (rder_comp (fun h => Ok (perturb s dx 0 h (dv_id dx) 0%nat))); [apply rder_total|rewrite pert0; reflexivity|apply rd_acosSq; fold x; lra]].
    + fold x. rewrite Rmult_1_r. reflexivity.
    + unfold perturb. cbn. apply (der_eq _ _ (0 + 1)); [ring|]. apply der_plus; [apply der_const|apply der_id].
  - lra.
  - rewrite Rabs_right by lra. lra.
Qed.
Definition st1 : state := fun _ _ => near1.
Lemma near1_hyps : 0 < 1 - st1 (dv_id dx) 0%nat /\ (st1 (dv_id dx) 0%nat - 1) * (st1 (dv_id dx) 0%nat - 1) < eps.
Proof. unfold st1, near1, eps. lra. Qed.
