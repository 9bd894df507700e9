(** * C53: Jacobians at the current state *)
From Coq Require Import Arith List ZArith NArith Bool Reals.
From Verif Require Import Lib_Ring Lib_Real Lib_Res MatrixStack_Model DesignVar_Base Jacobian_Model Jacobian_Spec Scalar_Model Scalar_Spec Geo_Model Geo_Spec Geo_Toy Stale_Model Stale_Spec Stale_Proofs Stale_Toy.
Import ListNotations.
Local Open Scope R_scope.

(** C53. Whatever updates, evaluations and Jacobian evaluations of whatever expressions happened before: after the expression has been evaluated, and as long as the
    design variables are not changed again, evaluateJacobians makes the calls that the current design-variable values alone determine.
    Missing: Jacobians taken after a change of the design variables without evaluating first. They are refuted below. *)
Theorem C53_after_evaluation_partial : forall X L h1 h2 e sc, any_lab L e -> Forall (quiet L) h2 ->
  let now := play X (h1 ++ EvValue e :: h2) sc in any_value_ok X e (fst now) -> fst (any_jac X e (fst now) (snd now)) = jac_now X e (fst now).
Proof. exact after_evaluation. Qed.
Print Assumptions C53_after_evaluation_partial.
Example C53_after_evaluation_ex : any_lab toy_L (AS toy_s) /\ Forall (quiet toy_L) st_h2 /\ fst (play toy_kin (st_h1 ++ EvValue (AS toy_s) :: st_h2) (toy_st, no_cache)) = toy_st /\ any_value_ok toy_kin (AS toy_s) toy_st.
Proof. exact hist_hyps. Qed.

(** Expressions without caching nodes, or with caching nodes only below nodes that evaluate them again, are current after every history. *)
Theorem C53_current_partial : forall X L h e sc, any_lab L e -> any_cur e = true ->
  let now := play X h sc in any_value_ok X e (fst now) -> fst (any_jac X e (fst now) (snd now)) = jac_now X e (fst now).
Proof. exact always_current. Qed.
Print Assumptions C53_current_partial.
Example C53_current_ex : any_lab toy_L (AV cur_v) /\ any_cur (AV cur_v) = true /\ fst (play toy_kin [EvValue (AV cur_v); EvState (st_k 3)] (toy_st, no_cache)) = st_k 3 /\ any_value_ok toy_kin (AV cur_v) (st_k 3).
Proof. exact cur_hyps. Qed.

(** The general claim is false: the rotated point C p is evaluated with p = (1, 2, 3), then p is set to (1, 2, 5). The Jacobian entry is still - 3, the derivative is - 5. *)
Theorem C53_stale_refuted : exists ops c, let now := play toy_kin [EvState (st_k 3); EvValue (AV st_e); EvState (st_k 5)] (toy_st, no_cache) in
  fst now = st_k 5 /\ fst (any_jac toy_kin (AV st_e) (fst now) (snd now)) = Ok ops /\ jc_run _ sp_addJ 16 (sp_init 3) ops = Ok c /\
  jacobian_entry (jc_store c) gR 0 1 = - 3 /\ gpartial toy_kin toy_kinds (fun s => do x <- vxval toy_kin st_e s; Ok (x 0%nat)) (st_k 5) gR 1 (- 5).
Proof. exact stale. Qed.
Print Assumptions C53_stale_refuted.

(** A transformation product that was never evaluated reads matrices that were never set. *)
Theorem C53_uninitialised_refuted : fst (any_jac toy_kin (AT toy_t) toy_st no_cache) = UB.
Proof. exact never_evaluated. Qed.
Print Assumptions C53_uninitialised_refuted.
