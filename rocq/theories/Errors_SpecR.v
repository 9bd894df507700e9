(** * What is assumed about an error term for the gradient theorem (reals) *)
From Coq Require Import Reals Arith List ZArith NArith Bool.
From Verif Require Import Lib_Ring Lib_Real Lib_Res MatrixStack_Model MatrixStack_Spec DesignVar_Base
  Jacobian_Model Jacobian_Spec Errors_Model Errors_Spec.
Import ListNotations.
Open Scope R_scope.

Section SpecR.
Variable al : nat.
Variables (useM : bool) (numOpt : nat).

(** A squared term with state [t]; evaluating its Jacobians produces [evs]; [e h] is its error vector
    when the active design variables have moved by h * dir; [rho] is the loss.  Assumed: the events are
    well formed (also below the weighting factor), the Jacobians they stand for are the derivative of
    the error, the M-estimator weight is not negative and is the derivative of rho. *)
Definition squared_term_ok (dir : vec R) (t : @fterm R) (evs : list (@event R)) (e : R -> vec R) (rho : R -> R) : Prop :=
  (N.of_nat (f_dim t) < 65536)%N /\
  (exists cs fs, cruns (f_dim t) al [] evs cs fs /\
     (forall i, (i < f_dim t)%nat -> derivable_pt_lim (fun h => e h i) 0 (Jdir cs dir i))) /\
  (exists cs' gs, cruns (f_dim t) al []
     (below (FMat (f_dim t) (f_dim t) (mscale (sqrtWeight sqrt useM (updateRawSquaredError (e 0) t)) (mtr (f_S t)))) evs) cs' gs) /\
  wf_dvs (event_dvs evs) /\ in_cols numOpt (event_dvs evs) /\
  (useM = true -> 0 <= f_weight t (quad (f_dim t) (invR t) (e 0))) /\
  derivable_pt_lim rho (quad (f_dim t) (invR t) (e 0)) (if useM then f_weight t (quad (f_dim t) (invR t) (e 0)) else 1).

(** the same for a non-squared term with scalar error [e h]; with an M-estimator its stored error must
    be up to date *)
Definition nonsquared_term_ok (dir : vec R) (t : @nterm R) (evs : list (@event R)) (e : R -> R) (rho : R -> R) : Prop :=
  (exists cs fs, cruns 1 al [] evs cs fs /\ derivable_pt_lim e 0 (Jdir cs dir 0)) /\
  (exists cs' gs, cruns 1 al [] (below (FScal (ns_factor useM t)) evs) cs' gs) /\
  wf_dvs (event_dvs evs) /\ in_cols numOpt (event_dvs evs) /\
  (useM = true -> n_error t = n_w t * e 0) /\
  derivable_pt_lim rho (n_w t * e 0) (if useM then n_weight t (n_w t * e 0) else 1).

(** what a call adds to a zero gradient *)
Definition result_or_zero (r : res (vec R)) : vec R := match r with Ok v => v | _ => fun _ => 0 end.
Definition zerov : vec R := fun _ => 0.

End SpecR.
