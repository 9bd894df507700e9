(** * C51: Jacobians of scalar expressions are the derivatives *)
From Coq Require Import Arith List ZArith NArith Bool Reals.
From Verif Require Import Lib_Ring Lib_Real Lib_Res MatrixStack_Model DesignVar_Base Jacobian_Model Jacobian_Spec Scalar_Model Scalar_Spec Scalar_Proofs2 Scalar_Toy.
Import ListNotations.
Local Open Scope R_scope.

(** C51. For every expression tree of scalar and vector nodes and every point of its domain: evaluation succeeds, evaluateJacobians fills a
    container, and the entry for component j of each active design variable is the partial derivative of the value.
    Missing: GenericScalarExpression with division, acosSquared where it uses a series, power 0 at 0 (all false, see below). *)
Theorem C51_scalar_partial : forall e s al, swf e -> sdom e s -> (0 < al)%nat -> stack_room 1 al (swidth e) (sdepth e) -> wf_dvs (sdvs e) ->
  exists v ops c, sval e s = Ok v /\ sjac e s = Ok ops /\ jc_run _ sp_addJ al (sp_init 1) ops = Ok c /\
    forall d j, In d (sdvs e) -> dv_active d = true -> (j < dv_dim d)%nat -> partial (sval e) s d j (jacobian_entry (jc_store c) d 0 j).
Proof. exact scalar_jacobian. Qed.
Print Assumptions C51_scalar_partial.
Example C51_scalar_ex : swf ex1 /\ sdom ex1 st /\ (0 < 16)%nat /\ stack_room 1 16 (swidth ex1) (sdepth ex1) /\ wf_dvs (sdvs ex1) /\ In dp (sdvs ex1) /\ dv_active dp = true.
Proof. exact ex1_hyps. Qed.

(** C51, vector expressions: entry (i, j) is the derivative of component i. *)
Theorem C51_vector : forall e s al, vwf e -> vdom e s -> (0 < al)%nat -> stack_room (vsize e) al (vwidth e) (vdepth e) -> wf_dvs (vdvs e) ->
  exists v ops c, vval e s = Ok v /\ vjac e s = Ok ops /\ jc_run _ sp_addJ al (sp_init (vsize e)) ops = Ok c /\
    forall d i j, In d (vdvs e) -> dv_active d = true -> (i < vsize e)%nat -> (j < dv_dim d)%nat -> partial (fun s => do x <- vval e s; Ok (x i)) s d j (jacobian_entry (jc_store c) d i j).
Proof. exact vector_jacobian. Qed.
Print Assumptions C51_vector.
Example C51_vector_ex : vwf ex2 /\ vdom ex2 st /\ stack_room (vsize ex2) 16 (vwidth ex2) (vdepth ex2) /\ wf_dvs (vdvs ex2) /\ In dp (vdvs ex2).
Proof. exact ex2_hyps. Qed.

(** C51, generic scalar expressions without division. *)
Theorem C51_generic_partial : forall e s al, gwf e -> no_division e -> (0 < al)%nat -> stack_room 1 al 1 (gdepth e) -> wf_dvs (gdvs e) ->
  exists v ops c, gval e s = Ok v /\ gjac e s = Ok ops /\ jc_run _ sp_addJ al (sp_init 1) ops = Ok c /\
    forall d j, In d (gdvs e) -> dv_active d = true -> (j < dv_dim d)%nat -> partial (gval e) s d j (jacobian_entry (jc_store c) d 0 j).
Proof. exact generic_jacobian. Qed.
Print Assumptions C51_generic_partial.
Example C51_generic_ex : gwf ex3 /\ no_division ex3 /\ stack_room 1 16 1 (gdepth ex3) /\ wf_dvs (gdvs ex3) /\ In dx (gdvs ex3).
Proof. exact ex3_hyps. Qed.

(** The property is false for division of generic scalar expressions: for x / y at x = 1, y = 2 the derivatives are 1/2 and -1/4, the container holds
    -1/4 and 1/2: the factors of the two operands are swapped. *)
Theorem C51_generic_division_refuted : gwf quot /\ gdom quot st /\ stack_room 1 16 1 (gdepth quot) /\ wf_dvs (gdvs quot) /\
  exists ops c, gjac quot st = Ok ops /\ jc_run _ sp_addJ 16 (sp_init 1) ops = Ok c /\
    jacobian_entry (jc_store c) dx 0 0 = - 1 / 4 /\ partial (gval quot) st dx 0 (1 / 2) /\ jacobian_entry (jc_store c) dy 0 0 = 1 / 2 /\ partial (gval quot) st dy 0 (- 1 / 4).
Proof. exact quot_wrong. Qed.
Print Assumptions C51_generic_division_refuted.

(** Derivatives are unique, so the entries above are wrong. *)
Theorem C51_derivative_unique : forall f s d j l l', partial f s d j l -> partial f s d j l' -> l = l'.
Proof. exact (fun f s d j l l' => rder_unique (fun h => f (perturb s d j h)) 0 l l'). Qed.
Print Assumptions C51_derivative_unique.

(** acosSquared closer than 2^-26 to one uses a series: never the exact derivative, but the difference is at most 4 (1 - x). *)
Theorem C51_acosSquared_series : forall s, 0 < 1 - s (dv_id dx) 0%nat -> (s (dv_id dx) 0%nat - 1) * (s (dv_id dx) 0%nat - 1) < eps ->
  exists f l, sjac (SAcosSq (SVar dx)) s = Ok [CApplyS f; CAddId dx; CEnd] /\ partial (sval (SAcosSq (SVar dx))) s dx 0 l /\ f <> l /\ Rabs (f - l) <= 4 * (1 - s (dv_id dx) 0%nat).
Proof. exact acosSq_wrong. Qed.
Print Assumptions C51_acosSquared_series.
Example C51_acosSquared_ex : 0 < 1 - st1 (dv_id dx) 0%nat /\ (st1 (dv_id dx) 0%nat - 1) * (st1 (dv_id dx) 0%nat - 1) < eps.
Proof. exact near1_hyps. Qed.

(** x to the power 0 at x = 0: the value is 1 with derivative 0, the Jacobian multiplies 0 by an infinite power. *)
Theorem C51_power_zero_refuted : sval (SPow (SVar dx) 0) st0 = Ok 1 /\ partial (sval (SPow (SVar dx) 0)) st0 dx 0 0 /\ sjac (SPow (SVar dx) 0) st0 = UB.
Proof. exact power_zero. Qed.
Print Assumptions C51_power_zero_refuted.
