(** * Two design variables and two error terms over the reals, used as examples next to the theorems *)
From Coq Require Import Arith Lia List ZArith NArith Bool Reals Lra.
From Verif Require Import Lib_Ring Lib_Real Lib_Res CCM_Model SBM_Model SBM_Spec SBM_Proofs SBM_Proofs2 LinSolve_Model LinSolve_Spec LinSolve_Proofs LinSolve_Proofs2 Gain_Spec Gain_Proofs Gain_Proofs2 Gain_Proofs3.
From Verif Require CCM_Spec CCM_Proofs.
Import ListNotations.
Local Open Scope R_scope.

Definition vr (v : list R) : vec R := fun i => nth i v 0.
Definition mr (m : list (list R)) : mat R := fun i j => nth j (nth i m []) 0.
(* a solver that checks its answers *)
Definition agreeR (n : nat) (M : mat R) (x b : vec R) : bool := forallb (fun p => if Req_EM_T (mvmul n M x p) (b p) then true else false) (seq 0 n).
Lemma agreeR_ok : forall n M x b, agreeR n M x b = true -> solves_eq n M x b.
Proof. intros n M x b H p Hp. unfold agreeR in H. rewrite forallb_forall in H. specialize (H p ltac:(apply in_seq; lia)). cbn beta in H. destruct (Req_EM_T _ _); [auto|discriminate]. Qed.
Lemma agreeR_yes : forall n M x b, solves_eq n M x b -> agreeR n M x b = true.
Proof. intros n M x b H. unfold agreeR. apply forallb_forall. intros p Hp. apply in_seq in Hp. destruct (Req_EM_T _ _) as [|N]; auto. destruct N. apply H. lia. Qed.
Definition bsolveR (guess : vec R) (H : sbm R) (b : vec R) : option (vec R) := if agreeR (total (s_rbi H)) (symm (SBM_Model.toDense H)) guess b then Some guess else None.
Lemma bsolveR_ok : forall guess, symmetric_solver (bsolveR guess).
Proof.
  intros guess H l S b x (W & St & Er & Ec & B) Sy E. unfold bsolveR in E. rewrite Er in E. destruct (agreeR _ _ _ _) eqn:A in E; [|discriminate]. injection E as <-.
  pose proof (agreeR_ok _ _ _ _ A) as Q. revert Q. apply solves_ext; auto. pose proof (stands_toDense H W) as T.
  assert (Lo : layout_ok l) by (rewrite <- Er; apply (SBM_Spec.wf_rows _ W)).
  assert (U : forall p q, (p < total l)%nat -> (q < total l)%nat -> (p <= q)%nat -> SBM_Model.toDense H p q = S p q).
  { intros p q Hp Hq L. rewrite total_base in Hp, Hq. destruct (tile_exists l p (length l) Lo (le_n _) Hp) as (br & i & H1 & H2 & ->). destruct (tile_exists l q (length l) Lo (le_n _) Hq) as (bc & j & H3 & H4 & ->).
    specialize (T br bc i j). rewrite Er, Ec in T. rewrite T, B by auto. destruct (Nat.leb_spec br bc) as [L2|L2]; auto. exfalso.
    pose proof (base_mono l (Datatypes.S bc) br Lo ltac:(lia) ltac:(lia)) as Mo. rewrite base_S in Mo by auto. lia. }
  intros p q Hp Hq. unfold symm. destruct (Nat.leb_spec p q) as [L|L]; [apply U; auto|]. rewrite (Sy p q) by auto. apply U; auto. lia.
Qed.
(* J = [1 1; 0 1; 0 2], e = (-1, 4, 3), damped by (1, 2): the step (1, -1) *)
Definition layR : list nat := [1; 2]%nat.
Definition tR1 : lterm R := mkLt 1 [(0%nat, mr [[1]]); (1%nat, mr [[1]])] (vr [-1]) (mr [[1]]) 1.
Definition tR2 : lterm R := mkLt 2 [(1%nat, mr [[2]; [1]])] (vr [3; 4]) (mr [[0; 1]; [1; 0]]) 1.
Definition tsR : list (lterm R) := [tR1; tR2].
Lemma layR_ok : layout_ok layR. Proof. intros [|[|b]] H; cbn in *; lia. Qed.
Lemma tsR_ok : Forall (lterm_ok layR) tsR.
Proof. repeat constructor; cbn; auto. Qed.
Lemma freshR_rep : represents (fresh layR layR : sbm R) layR layR (fun _ _ => 0).
Proof. destruct (fresh_good (K := R) layR layR layR_ok layR_ok) as (G & N). apply good_represents; auto. intros. unfold blk. rewrite N. auto. Qed.
Lemma runR : exists H' rhs b' x, bc_build (fun _ => 1) tsR (fresh layR layR) = Ok (H', rhs) /\ bc_solve (bsolveR (vr [1; -1])) (mkBc H' rhs (vr [1; 2]) true) = Ok (b', Some x) /\ (x 0%nat, x 1%nat) = (1, -1).
Proof.
  eexists _, _, _, _. split; [vm_compute; reflexivity|]. split.
  - cbv -[bsolveR Rplus Rmult Ropp IZR Rminus]. unfold bsolveR. match goal with |- context [agreeR ?n ?M ?x ?b] => rewrite (agreeR_yes n M x b) end; [reflexivity|].
    intros p Hp. cbn in Hp. destruct p as [|[|p]]; try lia; cbn; ring.
  - reflexivity.
Qed.
Lemma not_stationaryR : ~ stationary layR (fun _ => 1) tsR.
Proof. intros H. specialize (H (vr [1; 0])). unfold wprod, lin_change, mmul, mtr in H. cbn in H. lra. Qed.
(* the real cost: errors that are quadratic in the step length *)
Definition toy_tas : list (lterm R * along) :=
  [(tR1, {| al_E := fun h k => lt_err tR1 k + h * lin_change layR (fun _ => 1) tR1 (vr [1; -1]) k + h * h; al_rho := fun q => q |});
   (tR2, {| al_E := fun h k => lt_err tR2 k + h * lin_change layR (fun _ => 1) tR2 (vr [1; -1]) k - h * h; al_rho := fun q => q |})].
Lemma quad : forall a b c, derivable_pt_lim (fun h => a + h * b + c * (h * h)) 0 b.
Proof.
  intros a b c. eapply der_eq'; [|exact (derivable_pt_lim_plus _ _ 0 _ _ (derivable_pt_lim_plus _ _ 0 _ _ (derivable_pt_lim_const a 0) (derivable_pt_lim_mult _ _ 0 _ _ (derivable_pt_lim_id 0) (derivable_pt_lim_const b 0)))
    (derivable_pt_lim_mult _ _ 0 _ _ (derivable_pt_lim_const c 0) (derivable_pt_lim_mult _ _ 0 _ _ (derivable_pt_lim_id 0) (derivable_pt_lim_id 0))))]. unfold fct_cte, id, mult_fct. ring.
Qed.
Lemma toy_along : map fst toy_tas = tsR /\ Forall (along_ok layR (fun _ => 1) (vr [1; -1])) toy_tas.
Proof.
  split; [reflexivity|]. repeat constructor; intros.
  - cbn [fst snd al_E toy_tas]. ring.
  - cbn [fst snd al_E toy_tas]. eapply (der_ext (fun h => lt_err tR1 k + h * lin_change layR (fun _ => 1) tR1 (vr [1; -1]) k + 1 * (h * h))); [intros; ring|apply quad].
  - cbn [fst snd al_rho toy_tas lt_sw tR1]. apply (der_eq' _ _ 1); [ring|]. apply derivable_pt_lim_id.
  - cbn [fst snd al_E toy_tas]. ring.
  - cbn [fst snd al_E toy_tas]. eapply (der_ext (fun h => lt_err tR2 k + h * lin_change layR (fun _ => 1) tR2 (vr [1; -1]) k + (-1) * (h * h))); [intros; ring|apply quad].
  - cbn [fst snd al_rho toy_tas lt_sw tR2]. apply (der_eq' _ _ 1); [ring|]. apply derivable_pt_lim_id.
Qed.
Lemma block_caseR : layout_ok layR /\ represents (fresh layR layR : sbm R) layR layR (fun _ _ => 0) /\ Forall (lterm_ok layR) tsR /\ symmetric_solver (bsolveR (vr [1; -1])) /\
  (exists H' rhs b' x, bc_build (fun _ => 1) tsR (fresh layR layR) = Ok (H', rhs) /\ bc_solve (bsolveR (vr [1; -1])) (mkBc H' rhs (vr [1; 2]) true) = Ok (b', Some x) /\ (x 0%nat, x 1%nat) = (1, -1)) /\
  ~ stationary layR (fun _ => 1) tsR /\ map fst toy_tas = tsR /\ Forall (along_ok layR (fun _ => 1) (vr [1; -1])) toy_tas.
Proof. exact (conj layR_ok (conj freshR_rep (conj tsR_ok (conj (bsolveR_ok _) (conj runR (conj not_stationaryR toy_along)))))). Qed.

Definition csolveR (guess : vec R) (m : ccm R) (b : vec R) : option (vec R) :=
  match CCM_Model.toDense 0 m with Ok D => if agreeR (c_rows m) (mmul (c_cols m) D (mtr D)) guess b then Some guess else None | _ => None end.
Lemma csolveR_ok : forall guess, aat_solver (csolveR guess).
Proof.
  intros guess m A b x W St E. unfold csolveR in E. destruct (CCM_Proofs.toDense_ok (0 : R) m A W St) as (D & Ed & V). rewrite Ed in E. destruct (agreeR _ _ _ _) eqn:Q in E; [|discriminate]. injection E as <-.
  pose proof (agreeR_ok _ _ _ _ Q) as T. revert T. apply solves_ext; auto. intros p q Hp Hq. unfold mmul, mtr. apply ksum_ext. intros k Hk. rewrite !V by auto. auto.
Qed.
Lemma buildableR : buildable layR tsR (construct 0 0).
Proof. split; [exact layR_ok|]. split; [discriminate|]. split; [exact tsR_ok|]. split; [cbn; lia|]. right. repeat constructor; discriminate. Qed.
Lemma sparse_runR : exists x y, sc_build layR tsR (eval_errors tsR 0 (fun _ => 0)) [1; 2] true (construct 0 0) = Ok x /\ sc_solve (csolveR (vr [1; -1])) x = Ok (x, Some y) /\ (y 0%nat, y 1%nat) = (1, -1).
Proof.
  eexists _, _. split; [vm_compute; reflexivity|]. split.
  - cbv -[csolveR Rplus Rmult Ropp IZR Rminus]. unfold csolveR. match goal with |- context [CCM_Model.toDense ?z ?m] => let D := eval cbv -[Rplus Rmult Ropp IZR Rminus] in (CCM_Model.toDense z m) in change (CCM_Model.toDense z m) with D end. cbv iota.
    match goal with |- context [agreeR ?n ?M ?x ?b] => rewrite (agreeR_yes n M x b) end; [reflexivity|]. intros p Hp. cbn in Hp. destruct p as [|[|p]]; try lia; cbn; ring.
  - reflexivity.
Qed.
Definition DR : dq R := mkDq (fun _ _ => 0) 3 2 (fun _ => 0) (fun _ => 0) (vr [1; 2]) (Some true).
Lemma hqrR_ok : solves_problem (fun _ _ _ _ => vr [1; -1]) (jrows tsR + total layR) (total layR) (above_diag true (jrows tsR) (J_of layR tsR) (dq_c DR)) (above_zero (jrows tsR) (e_of tsR)).
Proof. intros A b _ _ p Hp. cbn in Hp. destruct p as [|[|p]]; try lia; cbn; ring. Qed.
