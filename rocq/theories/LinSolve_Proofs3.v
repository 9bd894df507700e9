From Coq Require Import Arith Lia List ZArith Bool.
From Verif Require Import Lib_Ring Lib_Res CCM_Model SBM_Model SBM_Spec SBM_Proofs SBM_Proofs2 LinSolve_Model LinSolve_Spec LinSolve_Proofs LinSolve_Proofs2.
Import ListNotations.
Local Open Scope nat_scope.
Section LSP3.
  Context {K : Type} {R : CRing K}.
  Add Ring KringL3 : (kring (K := K)).
  (** rhs() of the three solvers is minus the gradient *)
  Lemma rhs_block : forall s l ts (H : sbm K) A J' H' rhs, layout_ok l -> represents H l l A -> Forall (lterm_ok l) ts -> scaled_cols l s (J_of l ts) J' -> bc_build s ts H = Ok (H', rhs) ->
    forall p, p < total l -> rhs p = kopp (ksum (jrows ts) (fun r => kmul (J' r p) (e_of ts r))).
  Proof. intros s l ts H A J' H' rhs Lo Rp F Sc E p Hp. destruct (bc_build_ok s l ts H A J' Lo Rp F Sc) as (H1 & r1 & E1 & _ & V). rewrite E in E1. injection E1 as <- <-. exact (V p Hp). Qed.
  Lemma rhs_sparse : forall l ts e0 (c : list K) use m x, buildable l ts m -> sc_build l ts (eval_errors ts 0 e0) c use m = Ok x ->
    forall p, p < total l -> sc_rhs x p = kopp (ksum (jrows ts) (fun r => kmul (J_of l ts r p) (e_of ts r))).
  Proof.
    intros l ts e0 c use m x B E p Hp. destruct (sc_build_ok l ts (eval_errors ts 0 e0) c use m B) as (x0 & E0 & _ & _ & _ & _ & _ & V & _). rewrite E in E0. injection E0 as <-. rewrite V by auto.
    apply (neg_mvmul (jrows ts) (mtr (J_of l ts))). intros i Hi. rewrite eval_errors_ok by lia. rewrite Nat.sub_0_r. auto.
  Qed.
  Lemma rhs_dense : forall l ts e0 (x : dq K), layout_ok l -> Forall (lterm_ok l) ts -> dq_rows x = jrows ts -> dq_cols x = total l ->
    forall p, p < total l -> dq_rhs (dq_build l ts (eval_errors ts 0 e0) x) p = kopp (ksum (jrows ts) (fun r => kmul (J_of l ts r p) (e_of ts r))).
  Proof.
    intros l ts e0 x Lo F Er Ec p Hp. cbn [dq_build dq_rhs]. rewrite Er. transitivity (mvmul (jrows ts) (mtr (J_of l ts)) (eval_errors ts 0 e0) p).
    - unfold mvmul, mtr. apply ksum_ext. intros r Hr. f_equal. exact (dq_build_ok l ts (eval_errors ts 0 e0) x r p Lo F Hp).
    - apply (neg_mvmul (jrows ts) (mtr (J_of l ts))). intros i Hi. rewrite eval_errors_ok by lia. rewrite Nat.sub_0_r. auto.
  Qed.
End LSP3.
