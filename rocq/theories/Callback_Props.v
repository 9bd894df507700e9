(** * Callbacks and convergence status: the properties C27 and C28 *)
From Coq Require Import ZArith List Bool.
From Verif Require Import Lib_Res Lib_Float Optimizer2_Model Callback_Model Callback_Spec Callback_Proofs.
Import ListNotations.
Open Scope nat_scope.

(** ** C27 *)
(** After any history of registry operations, issuing an event invokes a prefix of the callbacks registered for it, in registration order,
    one after the other on the world that the previous one left; all invoked ones but the last asked to continue; the returned verdict is that of the last
    one; and if not all registered callbacks were invoked, the verdict is not CONTINUE. *)
Theorem C27_order : forall W (impl : nat -> functor_ W) h e w v w' cs,
  issueCallback impl (fold_left perform h empty_registry) e w = (v, w', cs) ->
  run impl e cs w v w' /\ exists rest, registered e h = cs ++ rest /\ (rest <> [] -> v <> CONTINUE).
Proof. exact issue_prefix. Qed.
Print Assumptions C27_order.
(** the number of callbacks is that of the registered ones *)
Theorem C27_registered : forall h e, fold_left perform h empty_registry e = registered e h /\
  numCallbacks (fold_left perform h empty_registry) e = length (registered e h).
Proof. exact (fun h e => conj (history_empty h e) (f_equal (@length nat) (history_empty h e))). Qed.
Print Assumptions C27_registered.
(** a removed callback is not invoked for the event, unless it is added again *)
Theorem C27_removed : forall W (impl : nat -> functor_ W) h1 h2 es c e w v w' cs, In e es ->
  (forall o, In o h2 -> match o with RAdd es' c' => c' = c -> ~ In e es' | _ => True end) ->
  issueCallback impl (fold_left perform (h1 ++ RRemove es c :: h2) empty_registry) e w = (v, w', cs) -> ~ In c cs.
Proof. exact not_invoked. Qed.
Print Assumptions C27_removed.
(** a callback cannot stop Optimizer2: whatever verdicts the callbacks return, the run is the same *)
Theorem C27_stop_refuted : forall W D (E : @env W D) index (g : nat -> W -> W) (verdict verdict' : nat -> W -> proceed) r,
  (forall e, length (r e) <= 1)%nat -> forall opt s d w,
  optimize (with_callbacks E (fun _ => FVerdict (fun e w => (verdict e w, g e w))) r index) opt s d w =
  optimize (with_callbacks E (fun _ => FVerdict (fun e w => (verdict' e w, g e w))) r index) opt s d w.
Proof. exact verdict_ignored. Qed.
Print Assumptions C27_stop_refuted.

(** three callbacks, the second says SUCCEED, the first was also added to another event and the fourth removed *)
Example C27_example :
  let h := [RAdd [7; 8] 1; RAdd [7] 4; RAdd [7] 2; RRemove [7] 4; RAdd [7] 3] in
  let impl c := match c with
                | 2 => FVerdict (fun e w => (SUCCEED, w ++ [c]))
                | _ => FVoid (fun e w => w ++ [c])
                end in
  registered 7 h = [1; 2; 3] /\
  issueCallback impl (fold_left perform h empty_registry) 7 [] = (SUCCEED, [1; 2], [1; 2]) /\
  issueCallback impl (fold_left perform h empty_registry) 8 [] = (CONTINUE, [1], [1]).
Proof. vm_compute. auto. Qed.
Example C27_example_stop : let r := fold_left perform [RAdd [0] 5; RAdd [1] 5] empty_registry in
  numCallbacks r 0 = 1 /\ numCallbacks r 1 = 1 /\ numCallbacks r 2 = 0.
Proof. vm_compute. auto. Qed.

(** ** C28 *)
(** the status is set to a criterion exactly if its quantity is strictly below its threshold and no criterion of higher priority is; if none
    is, it keeps its old value; the quantities are not changed *)
Theorem C28_criteria : forall o s, let s' := updateConvergenceStatus o s in
  let g := Below (sGradientNorm s) (oGradientNorm o) in let e := Below (fabs (sDeltaError s)) (oDeltaError o) in let x := Below (sMaxDeltaX s) (oDeltaX o) in
  (g -> sConvergence s' = GRADIENT_NORM) /\ (~ g -> e -> sConvergence s' = DOBJECTIVE) /\ (~ g -> ~ e -> x -> sConvergence s' = DX) /\
  (~ g -> ~ e -> ~ x -> sConvergence s' = sConvergence s) /\
  sGradientNorm s' = sGradientNorm s /\ sMaxDeltaX s' = sMaxDeltaX s /\ sDeltaError s' = sDeltaError s.
Proof. exact update_spec. Qed.
Print Assumptions C28_criteria.
(** a criterion with threshold zero never fires (for quantities that are non-negative or NaN, as norms are) *)
Theorem C28_disabled : forall o s, let c := sConvergence (updateConvergenceStatus o s) in
  (oDeltaError o = f0 -> c = DOBJECTIVE -> sConvergence s = DOBJECTIVE) /\
  (oDeltaX o = f0 -> (isnan (sMaxDeltaX s) = true \/ fle f0 (sMaxDeltaX s) = true) -> c = DX -> sConvergence s = DX) /\
  (oGradientNorm o = f0 -> (isnan (sGradientNorm s) = true \/ fle f0 (sGradientNorm s) = true) -> c = GRADIENT_NORM -> sConvergence s = GRADIENT_NORM).
Proof. exact disabled. Qed.
Print Assumptions C28_disabled.
(** options that pass the check have no NaN threshold and at least one positive one *)
Theorem C28_options : forall o, check o = true ->
  isnan (oGradientNorm o) = false /\ isnan (oDeltaX o) = false /\ isnan (oDeltaError o) = false /\
  fle f0 (oGradientNorm o) = true /\ fle f0 (oDeltaX o) = true /\ fle f0 (oDeltaError o) = true /\
  (Below f0 (oGradientNorm o) \/ Below f0 (oDeltaX o) \/ Below f0 (oDeltaError o)) /\ (-1 <= oMaxIterations o)%Z.
Proof. exact check_spec. Qed.
Print Assumptions C28_options.
(** success is reported exactly for a final status other than failure, and the three queries are mutually exclusive and exhaustive *)
Theorem C28_success : (forall c, (success c = true <-> c <> IN_PROGRESS /\ c <> FAILURE) /\ (failure c = true <-> c = FAILURE)) /\
  (forall c, exists! k : nat, match k with 0 => isConverged c = true | 1 => isFailed c = true | 2 => isInProgress c = true | _ => False end).
Proof. exact (conj success_spec trichotomy). Qed.
Print Assumptions C28_success.

Example C28_example :
  let o := mkBaseOptions (fl 1 (-10)) f0 (fl 1 (-4)) 100 in
  check o = true /\
  sConvergence (updateConvergenceStatus o (mkBaseStatus IN_PROGRESS (fz 1) (fz 0) (fl (-1) (-5)))) = DOBJECTIVE /\
  sConvergence (updateConvergenceStatus o (mkBaseStatus IN_PROGRESS NaN NaN NaN)) = IN_PROGRESS /\
  sConvergence (updateConvergenceStatus o (mkBaseStatus IN_PROGRESS (fl 1 (-11)) NaN (fl (-1) (-5)))) = GRADIENT_NORM /\
  sConvergence (updateConvergenceStatus o (mkBaseStatus IN_PROGRESS (fz 1) (fz 0) (fz 1))) = IN_PROGRESS.
Proof. vm_compute. auto. Qed.
