(** * C64: bookkeeping of SimpleOptimizationProblem *)
From Coq Require Import Arith List Bool.
From Verif Require Import Lib_Res SProb_Model SProb_Spec SProb_Proofs.
Import ListNotations.

(** C64. After any history of calls: the design variables are those handed over since the last clear(), each once, in the order of their first call; the squared error terms are those
    handed over since the last clear(), in order; the counts and index accessors agree with this.
    Missing: the non-squared error terms are all that were ever handed over, not only those since the last clear() (see C64_clear_refuted). *)
Theorem C64_contents_partial : forall h s, srun h sempty = Ok s ->
  NoDup (added_dvs (recent h)) /\
  (numDesignVariables s = length (added_dvs (recent h)) /\ forall i, designVariable s i = match nth_error (added_dvs (recent h)) i with Some v => Ok v | None => UB end) /\
  (forall v, isDesignVariableInProblem v s = true <-> exists hd, In (AddDv hd v) (recent h)) /\
  (numErrorTerms s = length (added_ets (recent h)) /\ forall i, errorTerm s i = match nth_error (added_ets (recent h)) i with Some t => Ok t | None => UB end) /\
  (numNonSquaredErrorTerms s = length (added_nts h) /\ forall i, nonSquaredErrorTerm s i = match nth_error (added_nts h) i with Some t => Ok t | None => UB end) /\
  numTotalErrorTerms s = length (added_ets (recent h)) + length (added_nts h).
Proof. exact contents. Qed.
Print Assumptions C64_contents_partial.
(* a design variable handed over twice, a clear() in between *)
Example C64_contents_ex : exists s, srun [AddDv Owned 1; AddEt Owned 5; Clear; AddDv Owned 2; AddDv Shared 3; AddDv Borrowed 2; AddEt Borrowed 6; AddNs Shared 8; AddEt Borrowed 6] sempty = Ok s /\
  numDesignVariables s = 2 /\ numTotalErrorTerms s = 3 /\ designVariable s 1 = Ok 3.
Proof. eexists. split; [vm_compute; reflexivity|]. vm_compute. repeat split. Qed.

(** C64. Nothing is deleted twice, if no object is handed over with ownership twice. *)
Theorem C64_no_double_delete_partial : forall h, NoDup (owned_dvs h) -> NoDup (owned_ets h) -> exists s, srun h sempty = Ok s.
Proof. exact no_double_delete. Qed.
Print Assumptions C64_no_double_delete_partial.
Example C64_no_double_delete_ex : let h := [AddDv Owned 1; AddEt Owned 5; Clear; AddDv Owned 2; AddEt Owned 6; AddEt Borrowed 7; AddEt Borrowed 7; Clear] in NoDup (owned_dvs h) /\ NoDup (owned_ets h).
Proof. cbn. split; repeat constructor; cbn; intuition discriminate. Qed.
(** For design variables handing over twice is detected, for error terms it is not: the second deletion is undefined. *)
Theorem C64_double_ownership_refuted : srun [AddEt Owned 5; AddEt Owned 5; Clear] sempty = UB /\ exists s, srun [AddDv Owned 5; AddDv Owned 5; Clear] sempty = Ok s.
Proof. exact (conj eq_refl (ex_intro _ _ eq_refl)). Qed.
Print Assumptions C64_double_ownership_refuted.

(** C64. No released object is read, as long as nothing that was deleted by clear() is handed over again or used by a term handed over since, or by a non-squared error term.
    Missing: the last condition should not be needed, since clear() should forget the non-squared error terms. *)
Theorem C64_safe_partial : forall uses usesN h s, srun h sempty = Ok s ->
  (forall t, In t (added_ets (recent h)) -> ~ In t (owned_ets (before h)) /\ forall v, In v (uses t) -> ~ In v (owned_dvs (before h))) ->
  (forall t, In t (added_nts h) -> forall v, In v (usesN t) -> ~ In v (owned_dvs (before h))) ->
  (forall v, In v (added_dvs (recent h)) -> ~ In v (owned_dvs (before h))) -> read_all uses usesN s = Ok tt.
Proof. exact safe_read. Qed.
Print Assumptions C64_safe_partial.
Example C64_safe_ex : let h := [AddDv Owned 1; AddEt Owned 5; AddNs Shared 8; Clear; AddDv Owned 2; AddEt Owned 6] in let uses := fun t => [t - 4] in let usesN := fun t => [t - 6] in
  (forall t, In t (added_ets (recent h)) -> ~ In t (owned_ets (before h)) /\ forall v, In v (uses t) -> ~ In v (owned_dvs (before h))) /\
  (forall t, In t (added_nts h) -> forall v, In v (usesN t) -> ~ In v (owned_dvs (before h))) /\ (forall v, In v (added_dvs (recent h)) -> ~ In v (owned_dvs (before h))).
Proof. cbn. repeat split; intros; intuition (subst; cbn in *; intuition discriminate). Qed.

(** C64. clear() empties a problem without non-squared error terms. *)
Theorem C64_clear_partial : forall h s, added_nts h = [] -> srun (h ++ [Clear]) sempty = Ok s -> numDesignVariables s = 0 /\ numTotalErrorTerms s = 0.
Proof. exact clear_empties. Qed.
Print Assumptions C64_clear_partial.
Example C64_clear_ex : let h := [AddDv Owned 1; AddEt Owned 5; Clear; AddDv Owned 2; AddEt Borrowed 6] in added_nts h = [] /\ exists s, srun (h ++ [Clear]) sempty = Ok s.
Proof. split; [reflexivity|eexists; reflexivity]. Qed.
(** clear() "the design variables and error terms" keeps the non-squared error terms: one remains, and when it uses a design variable that clear() deleted, the next use of the problem
    reads released memory. *)
Theorem C64_clear_refuted : exists s, srun [AddDv Owned 1; AddNs Owned 7; Clear] sempty = Ok s /\ numDesignVariables s = 0 /\ numTotalErrorTerms s = 1 /\ read_all (fun _ => []) (fun _ => [1]) s = UB.
Proof. exact (ex_intro _ _ (conj eq_refl (conj eq_refl (conj eq_refl eq_refl)))). Qed.
Print Assumptions C64_clear_refuted.
