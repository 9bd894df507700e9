(** * Specification of BlockCholeskyLinearSystemSolver over a sequence of calls *)
From Coq Require Import Arith Lia List Bool Sorting.Sorted.
From Verif Require Import Lib_Ring Lib_Res SBM_Model SBM_Spec Cov_Spec BSolver_Model BSolver_Spec LinSolve_Model LinSolve_Spec BlkSys_Model.
Import ListNotations.

Section Spec.
  Context {K : Type} {R : CRing K}.
  Variable scaling : nat -> K.
  (* two design variables occur together in an error term *)
  Definition together (ts : list (lterm K)) (r c : nat) : Prop := exists t, In t ts /\ In r (map fst (lt_jac t)) /\ In c (map fst (lt_jac t)).
  Definition same_support (ts ts' : list (lterm K)) : Prop := forall r c, together ts r c <-> together ts' r c.

  (* what the caller knows: the layout and the flag of the last initMatrixStructure, the terms of the first buildSystem since then, the terms of the last buildSystem if the
     Hessian still is what it left, the conditioner *)
  Record seen := mkSeen { g_l : list nat; g_use : bool; g_first : option (list (lterm K)); g_now : option (list (lterm K)); g_c : vec K }.
  (* the state after a call *)
  Definition after (o : op K) (g : seen) : seen :=
    match o with
    | OInit l use _ => mkSeen l use None None (fun _ => k0)
    | OBuild ts => mkSeen (g_l g) (g_use g) (match g_first g with Some t => Some t | None => Some ts end) (Some ts) (g_c g)
    | OCond c => mkSeen (g_l g) (g_use g) (g_first g) (g_now g) c
    | OSolve _ | OCov _ => mkSeen (g_l g) (g_use g) (g_first g) (if g_use g then None else g_now g) (g_c g)
    end.
  (* the arguments are good; solve and covariances come after a build; the error terms depend on the same design variables as at the first build *)
  Definition allowed (o : op K) (g : seen) : Prop :=
    match o with
    | OInit l _ _ => layout_ok l /\ l <> [] /\ positive l
    | OBuild ts => g_l g <> [] /\ Forall (lterm_ok (g_l g)) ts /\ match g_first g with Some t => same_support t ts | None => True end
    | OCond _ => True
    | OSolve _ => g_first g <> None
    | OCov bi => g_first g <> None /\ fits_int (total (g_l g)) /\ forall b, In b bi -> fst b < length (g_l g) /\ snd b < length (g_l g)
    end.
  Fixpoint disciplined (l : list (op K)) (g : seen) : Prop := match l with [] => True | o :: l' => allowed o g /\ disciplined l' (after o g) end.

  (* the damped normal matrix of the terms of the last build, with the Jacobian J' *)
  Definition damped (g : seen) (ts : list (lterm K)) (J' : mat K) : mat K := damped_normal (jrows ts) J' (fun p => if g_use g then g_c g p else k0).
  (* what a call has to deliver; spqr: the type of the solver; pd, reg: the matrices on which CHOLMOD and SuiteSparseQR always succeed *)
  Definition delivered (spqr : bool) (pd reg : nat -> mat K -> Prop) (o : op K) (a : ans K) (g : seen) : Prop :=
    match o, a with
    | OInit _ _ _, ADone | OBuild _, ADone | OCond _, ADone => True
    | OSolve dx, ASolved ok x => forall ts J', g_now g = Some ts -> scaled_cols (g_l g) scaling (J_of (g_l g) ts) J' ->
        let n := total (g_l g) in
        (spqr = false -> (ok = true -> normal_equations (jrows ts) n J' (e_of ts) (fun p => if g_use g then g_c g p else k0) x) /\ (ok = false -> ~ pd n (damped g ts J'))) /\
        (spqr = true -> reg n (damped g ts J') -> ok = true /\ normal_equations (jrows ts) n J' (e_of ts) (fun p => if g_use g then g_c g p else k0) x)
    | OCov bi, ACov P => forall ts J' Ai, spqr = false -> g_now g = Some ts -> scaled_cols (g_l g) scaling (J_of (g_l g) ts) J' -> inverse_of (total (g_l g)) (damped g ts J') Ai ->
        match P with
        | Some s => well_formed s /\ s_rbi s = g_l g /\ s_cbi s = g_l g /\ (forall r c, get s r c <> None <-> In (r, c) bi) /\
            forall r c i j, In (r, c) bi -> i < bsize (g_l g) r -> j < bsize (g_l g) c -> blk s r c i j = Ai (base (g_l g) r + i) (base (g_l g) c + j)
        | None => ~ pd (total (g_l g)) (damped g ts J')
        end
    | _, _ => False
    end.
  Fixpoint all_delivered (spqr : bool) (pd reg : nat -> mat K -> Prop) (l : list (op K)) (a : list (ans K)) (g : seen) : Prop :=
    match l, a with
    | [], [] => True
    | o :: l', x :: a' => delivered spqr pd reg o x g /\ all_delivered spqr pd reg l' a' (after o g)
    | _, _ => False
    end.
  (* before the first initMatrixStructure: nothing but initMatrixStructure is allowed *)
  Definition nothing (b : bc K) : seen := mkSeen [] (bc_use b) None None (bc_c b).
End Spec.
Arguments seen K : clear implicits.
