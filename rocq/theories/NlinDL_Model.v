(** * Optimizer2 with the dog-leg policy on nonlinear least-squares problems, in real arithmetic

    The loop and the problem are those of Nlin_Model.v, the policy is dl_solve of Policy_Model.v, at a zero gradient dl_solve_on of LinDL_Model.v. The policy's state is None once a step
    was not a number; what happens from then on is not modelled. *)
From Coq Require Import Reals List Bool ZArith.
From Verif Require Import Lib_Ring Lib_Real Policy_Model Lin_Model LinDL_Model Nlin_Model.
Open Scope R_scope.

Section DL.
  Variables (X : Type) (n m : nat) (e : X -> vec R) (Jac : X -> mat R) (solver : mat R -> R -> vec R -> option (vec R)).
  (* aslam_backend/src/DogLegTrustRegionPolicy.cpp L25-142 inside TrustRegionPolicy.cpp L38-49; the flag says that the steepest descent step held is not a number (built at a zero gradient, L72-74);
     it would be used when that step is taken back (L85) *)
  Definition n_dl_call (s : option (dl * bool)) (J : R) (pf : bool) (x : X) (dx : vec R) : bool * vec R * option (dl * bool) :=
    match s with
    | None => (true, dx, None)
    | Some (s, nan) =>
        if nan && pf then (true, dx, None) else
        match dl_solve_on n s dx (mkCall J pf (n_system X n m e Jac x) (n_reply X m e Jac solver x 0 dx)) with
        | DLok ok d s' => (ok, d, Some (s', negb pf && (if Req_EM_T (rJtJr (n_system X n m e Jac x)) 0 then true else false)))
        | _ => (true, dx, None)
        end
    end.
  (* aslam_backend/src/DogLegTrustRegionPolicy.cpp L6-161, used by Optimizer2.cpp L193-242; s0 is what an earlier run has left *)
  Definition n_dog_leg (s0 : dl) : npolicy X := mkNpolicy X (option (dl * bool)) true (fun J => Some (dl_start s0 J, false)) n_dl_call.
End DL.
