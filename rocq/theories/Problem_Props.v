(** * Properties C11, C12: OptimizationProblem *)
From Coq Require Import Arith List Bool.
From Verif Require Import Lib_Res Problem_Model Problem_Spec Problem_Proofs.
Import ListNotations.

(** C11: after any history that runs without undefined behaviour (touching a freed term is the only
    source) the contents are those of plain lists that forget nothing and keep nothing removed;
    membership, the terms of a variable, and the number of active variables are answered from them.
    [lists t] / [nlists t] are the variables of a squared / non-squared term, [outside t] says that
    the caller also holds a reference to t. *)
Theorem C11_contents_match_history :
  forall (lists nlists : nat -> list nat) (outside : nat -> bool) h p,
  run lists nlists outside h empty_prob = Some p ->
  let s := spec_run lists h in
  p_dvs p = s_dvs s /\ p_terms p = s_terms s /\ p_ns p = s_ns s /\ NoDup (p_dvs p) /\
  (forall v, isDesignVariableInProblem v p = true <-> In v (s_dvs s)) /\
  (forall v t, In t (getErrors v p) <-> In t (s_terms s) /\ In v (lists t)) /\
  (forall v t, In t (getNonSquaredErrors v p) <-> In t (s_ns s) /\ In v (nlists t)) /\
  (forall active, countActiveDesignVariables active p = length (filter active (s_dvs s))).
Proof. exact c11. Qed.
Print Assumptions C11_contents_match_history.

(** C11: the only call that throws is adding a variable that is already there (and by the previous
    theorem the history then goes on with unchanged contents) *)
Theorem C11_only_duplicates_throw :
  forall (lists nlists : nat -> list nat) (outside : nat -> bool) h p o,
  run lists nlists outside h empty_prob = Some p ->
  (step lists nlists outside o p = Throw <-> exists v, o = AddDV v /\ In v (s_dvs (spec_run lists h))).
Proof. exact c11_throw. Qed.
Print Assumptions C11_only_duplicates_throw.

(** C12 (partial): removeDesignVariable is free of undefined behaviour exactly when no contained term
    that is owned by the problem alone lists v more than once; then v and every squared term listing
    it are gone and everything else is as before.  Missing: non-squared terms stay (see below). *)
Theorem C12_remove_design_variable_partial :
  forall (lists nlists : nat -> list nat) (outside : nat -> bool) h p v,
  run lists nlists outside h empty_prob = Some p ->
  ((forall t, In t (p_terms p) -> outside t = false -> count_occ Nat.eq_dec (lists t) v <= 1) <->
   step lists nlists outside (RemDV v) p <> UB) /\
  (forall p', step lists nlists outside (RemDV v) p = Ok p' ->
    ~ In v (p_dvs p') /\ (forall t, In t (p_terms p') -> ~ In v (lists t)) /\
    (forall t, ~ In v (lists t) -> count_occ Nat.eq_dec (p_terms p') t = count_occ Nat.eq_dec (p_terms p) t) /\
    (forall w, w <> v -> (In w (p_dvs p') <-> In w (p_dvs p))) /\ getErrors v p' = [] /\ p_ns p' = p_ns p).
Proof. exact c12. Qed.
Print Assumptions C12_remove_design_variable_partial.

(** ** examples: term 7 uses variables 1 and 2, term 8 uses 2 and 3, term 9 uses 3 twice *)
Definition ex_lists (t : nat) : list nat :=
  match t with 7 => [1; 2] | 8 => [2; 3] | 9 => [3; 3] | _ => [] end.
Definition ex_hist : list op := [AddDV 1; AddDV 2; AddDV 3; AddDV 2; AddET 7; AddET 8; AddNS 8; RemDV 1; AddET 9].

Example C11_example : exists p, run ex_lists ex_lists (fun _ => false) ex_hist empty_prob = Some p /\
  p_dvs p = [2; 3] /\ p_terms p = [8; 9] /\ getErrors 3 p = [8; 9; 9] /\ countActiveDesignVariables Nat.odd p = 1.
Proof. eexists. split; [vm_compute; reflexivity|]. vm_compute. auto. Qed.
Example C11_example_throw : forall p, run ex_lists ex_lists (fun _ => false) ex_hist empty_prob = Some p ->
  step ex_lists ex_lists (fun _ => false) (AddDV 3) p = Throw.
Proof. intros p H. vm_compute in H. injection H as <-. reflexivity. Qed.
Example C12_example : exists p p', run ex_lists ex_lists (fun _ => false) ex_hist empty_prob = Some p /\
  step ex_lists ex_lists (fun _ => false) (RemDV 2) p = Ok p' /\ p_terms p = [8; 9] /\ p_terms p' = [9].
Proof. eexists. eexists. split; [vm_compute; reflexivity|]. split; [vm_compute; reflexivity|]. auto. Qed.

(** C12: removing variable 3 while a term owned by the problem lists it twice reads the freed term *)
Theorem C12_term_listing_variable_twice_refuted :
  exists lists nlists outside h p v, run lists nlists outside h empty_prob = Some p /\
    step lists nlists outside (RemDV v) p = UB.
Proof. exists ex_lists, ex_lists, (fun _ => false), ex_hist. eexists. exists 3. split; vm_compute; reflexivity. Qed.
Print Assumptions C12_term_listing_variable_twice_refuted.

(** C12: non-squared terms that use the removed variable stay in the problem *)
Theorem C12_nonsquared_terms_keep_reference_refuted :
  exists lists nlists outside h p v p', run lists nlists outside h empty_prob = Some p /\
    step lists nlists outside (RemDV v) p = Ok p' /\
    exists t, In t (p_ns p') /\ In v (nlists t) /\ ~ In v (p_dvs p').
Proof.
  exists ex_lists, ex_lists, (fun _ => false), ex_hist. eexists. exists 2. eexists.
  split; [vm_compute; reflexivity|]. split; [vm_compute; reflexivity|].
  exists 8. split; [left; reflexivity|]. split; [left; reflexivity|]. intros [H|[]]. discriminate.
Qed.
Print Assumptions C12_nonsquared_terms_keep_reference_refuted.
