(** * OptimizerBFGS: aslam_backend/src/OptimizerBFGS.cpp, in exact arithmetic.
    The cost function is a type of worlds with arbitrary error, gradient (of the n optimization parameters) and state update by an increment.
    Not modelled: callbacks, status counters, timing. When to stop after a successful line search (updateStatus L187-196, see C28) is an arbitrary decision. *)
From Coq Require Import ZArith Reals List Bool.
From Verif Require Import Lib_Ring Lib_Real Lib_Res Lib_Num LineSearch_Model.
Import ListNotations.
Open Scope R_scope.

Section BFGS.
  Context {W : Type}.
  Variable n : nat.
  Variables (errorOf : W -> R) (gradOf : W -> vec R) (update : W -> vec R -> W).
  Variable o : lsoptions R.
  Variable stop : lstate R W (vec R) -> bool.

  (* OptimizerBFGS.cpp L112: pk = -_Bk*gfk.transpose() *)
  Definition bfgs_direction (B : mat R) (g : vec R) : vec R := fun i => - mvmul n B g i.

  (* OptimizerBFGS.cpp L154-158: 1/x is infinite for x = 0 *)
  Definition bfgs_rho (y s : vec R) : R := if Req_EM_T (vdot n y s) 0 then 1000 else 1 / vdot n y s.

  (* OptimizerBFGS.cpp L160-162 *)
  Definition bfgs_update (B : mat R) (s y : vec R) : mat R :=
    let rho := bfgs_rho y s in
    let C : mat R := fun i j => s i * y j * rho in
    let A := msub mid C in
    madd (mmul n A (mmul n B (mtr A))) (fun i j => rho * s i * s j).

  (* OptimizerBFGS.hpp (members _Bk, _linesearch) and the local gfk *)
  Record bfgs := mkBfgs { bB : mat R; bg : vec R; bl : lstate R W (vec R) }.

  (* LineSearch.cpp L649-651 and L510 for the search direction p *)
  Definition along (p g : vec R) : R := vdot n g p.
  (* same code: LineSearch.cpp L649-651 and L510 *)
  Definition shift (p : vec R) (w : W) (s : R) : W := update w (vscale s p).

  (* OptimizerBFGS.cpp L109-124: the search direction; a direction that is not a descent direction resets the matrix once *)
  Definition bfgs_set (st : bfgs) : res (mat R * vec R * lstate R W (vec R)) :=
    let p := bfgs_direction (bB st) (bg st) in
    match setSearchDirection (along p) (bl st) with
    | Ok l => Ok (bB st, p, l)
    | _ => let p' := bfgs_direction mid (bg st) in
           match setSearchDirection (along p') (bl st) with
           | Ok l => Ok (mid, p', l)
           | Throw => Throw
           | UB => UB
           end
    end.

  (* what happened in one iteration: the matrix, gradient and direction used, the step length, the point left and the point reached *)
  (* in the model only: a record of OptimizerBFGS.cpp L100-167 *)
  Record iter := mkIter { i_B : mat R; i_g : vec R; i_p : vec R; i_alpha : R; i_from : W; i_to : W }.

  (* OptimizerBFGS.cpp L100-167: one iteration and, unless the loop is left (L140-142, L177-196: always after a failed line search), the next state *)
  Definition bfgs_iteration (st : bfgs) : res (iter * option bfgs) :=
    do d <- bfgs_set st;
    let '(B, p, l) := d in
    do r <- lineSearchWolfe12 errorOf gradOf (along p) (shift p) o l;
    let '(ok, l1) := r in
    let it := mkIter B (bg st) p (l_step l1) (l_world l) (l_world l1) in
    if negb ok || stop l1 then Ok (it, None) else
    let s := vscale (l_step l1) p in
    let y := vsub (l_grad l1) (bg st) in
    Ok (it, Some (mkBfgs (bfgs_update B s y) (l_grad l1) l1)).

  (* OptimizerBFGS.cpp L100: at most m iterations; all of them, in order, and the state in which the loop ends *)
  Fixpoint bfgs_loop (m : nat) (st : bfgs) : res (list iter * bfgs) :=
    match m with
    | O => Ok ([], st)
    | S m' => do r <- bfgs_iteration st;
              match snd r with
              | None => Ok ([fst r], st)
              | Some st1 => do r' <- bfgs_loop m' st1; Ok (fst r :: fst r', snd r')
              end
    end.

  (* OptimizerBFGS.cpp L75-78, L88 and LineSearch.cpp L459-483: after reset. _errorOld is NaN there; in exact arithmetic any number below the
     error has the same effect (LineSearch.cpp L660-664, L731-736), and the theorems hold for every number. *)
  Definition bfgs_start (w : W) (errorOld slope0 : R) : bfgs :=
    mkBfgs mid (gradOf w) (mkLS (gradOf w) 0 (errorOf w) errorOld slope0 false false w).
End BFGS.
Arguments bfgs W : clear implicits. Arguments iter W : clear implicits.
