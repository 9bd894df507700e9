(** * Optimizer2 with the dog-leg policy on linear least-squares problems, in real arithmetic

    The loop and the problem are those of Lin_Model.v, the policy is dl_solve of Policy_Model.v.  That model says NaN as soon as the length of the steepest descent step is 0/0 (no gradient
    left); the code goes on: the comparison with the NaN fails and, unless the radius is not set yet, the Gauss-Newton step is taken.  The NaN then stays in _dx_sd, which is only read again after
    a step was taken back; here it is left as it was. *)
From Coq Require Import Reals List Bool ZArith.
From Verif Require Import Lib_Ring Lib_Real Policy_Model Lin_Model.
Open Scope R_scope.

(* aslam_backend/src/DogLegTrustRegionPolicy.cpp L25-142 inside TrustRegionPolicy.cpp L38-49 *)
Definition dl_solve_on (n : nat) (s : dl) (dx : vec R) (c : call) : dlres :=
  let sys := cfresh c in
  if negb (cpf c) && (if Req_EM_T (rJtJr sys) 0 then true else false) && (if Req_EM_T (vdot n (rhs sys) (rhs sys)) 0 then true else false) then
    let b := base_enter (d_base s) c in
    let delta := if bfirst b then d_delta s else dl_radius n s (xdiv (get_dJ b) (d_L0 s)) in
    if negb (fst (csolve c)) then
      DLok false dx (mkDl (base_leave b) (d_dx s) (d_sd s) (Some (snd (csolve c))) (d_sdn s) (d_gnn s) (d_L0 s) (d_scale s) delta (d_type s) sys)
    else if Req_EM_T delta 0 then DLNaN
    else
      let gn := snd (csolve c) in
      if rle (norm n gn) delta then DLok true gn (mkDl (base_leave b) gn (d_sd s) (Some gn) (d_sdn s) (norm n gn) (cJ c) (d_scale s) delta TGN sys)
      else DLNaN
  else dl_solve n s dx c.

Section DL.
  Variables (n m : nat) (A : mat R) (b : vec R) (solver : R -> vec R -> option (vec R)).
  (* aslam_backend/src/DogLegTrustRegionPolicy.cpp L6-161, used by Optimizer2.cpp L193-242; s0 is what an earlier run has left; None: a step was not a number *)
  Definition dog_leg (s0 : dl) : policy :=
    mkPolicy (option dl) true (fun J => Some (dl_start s0 J))
      (fun s J pf x dx =>
        match s with
        | None => (true, dx, None)
        | Some s => match dl_solve_on n s dx (mkCall J pf (system_at n m A b x) (reply solver 0 (mJte n m A b x) dx)) with
            | DLok ok d s' => (ok, d, Some s')
            | _ => (true, dx, None) end
        end).
End DL.
