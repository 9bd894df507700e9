(** * Optimizer (v1): the loop of Optimizer::optimize, written over an arbitrary environment.
    As in Optimizer2_Model.v the environment (error terms, linear solver, Schur complement, design variables, callbacks) is a type of
    worlds [W] with arbitrary functions on it.  Numbers are IEEE doubles (Lib_Float).
    Not modelled: console output, timers, C++ exceptions thrown by user code. *)
From Coq Require Import ZArith List Bool.
From Verif Require Import Lib_Res Lib_Float Optimizer2_Model.
Import ListNotations.
Open Scope Z_scope.

(* aslam_backend/include/aslam/backend/OptimizerOptions.hpp L29-66: the options read by optimize() and setInitialLambda() *)
Record options1 := mkOptions1 {
  convDeltaJ : b64; convDeltaX : b64; maxIter : Z; lambdaInit : b64; lmGamma : b64; lmBeta : Z; lmP : Z; lmMuInit : b64;
  lambdaScale : b64; doLM : bool }.

(* aslam_backend/include/aslam/backend/backend.hpp L14-27 *)
Record srv := mkSrv { rJStart : b64; rJFinal : b64; rIterations : Z; rFailed : Z; rLambda : b64; rdX : b64; rdJ : b64 }.

(* sparse_block_matrix: the diagonal blocks of _H, absent or with their number of rows and their entries; Optimizer.cpp L147-148 *)
Definition diag_blocks := list (option (Z * (Z -> Z -> b64))).

Section SetLambda.
  (* Optimizer.cpp L150-153: the entry compared is (j,j), the entry stored is (i,j) where i is the number of the block; reading a
     row that the block does not have is undefined *)
  Fixpoint scan_rows (i rows : Z) (H : Z -> Z -> b64) (n : nat) (j : Z) (mx : b64) : res b64 :=
    match n with
    | O => Ok mx
    | S n' => if fgt (fabs (H j j)) mx
              then (if i <? rows then scan_rows i rows H n' (j + 1) (fabs (H i j)) else UB)
              else scan_rows i rows H n' (j + 1) mx
    end.
  (* Optimizer.cpp L144-156 *)
  Fixpoint scan_blocks (i : Z) (bs : diag_blocks) (mx : b64) : res b64 :=
    match bs with
    | [] => Ok mx
    | None :: t => scan_blocks (i + 1) t mx
    | Some (rows, H) :: t => do m <- scan_rows i rows H (Z.to_nat rows) 0 mx; scan_blocks (i + 1) t m
    end.
  (* Optimizer.cpp L136-159 *)
  Definition setInitialLambda (o : options1) (bs : diag_blocks) (lambda : b64) : res b64 :=
    if negb (feq lambda f0) then Ok lambda
    else if fle (lambdaScale o) f0 then Ok (lambdaInit o)
    else do m <- scan_blocks 0 bs f0; Ok (fmul m (lambdaScale o)).
End SetLambda.

Section Loop.
  Context {W : Type}.
  Record env1 := mkEnv1 {
    (* evaluateError with its callbacks, Optimizer.cpp L669-682 *)
    v_eval : W -> b64 * W;
    (* buildGnMatrices, Optimizer.cpp L684-696 *)
    v_build : W -> W;
    (* the diagonal blocks of _H, Optimizer.cpp L147-148 *)
    v_diag : W -> diag_blocks;
    (* applySchurComplement and _solver->solve, Optimizer.cpp L512-526; the argument is _lambda *)
    v_solve : W -> b64 -> bool * W;
    (* applyStateUpdate: returns max |dx|, Optimizer.cpp L617-650 *)
    v_apply : W -> b64 * W;
    (* revertLastStateUpdate, Optimizer.cpp L652-657 *)
    v_revert : W -> W;
    (* issueCallback, Optimizer.cpp L162-165 *)
    v_callback : event -> W -> W;
    (* _dx.transpose() * (_lambda * _dx + _b), Optimizer.cpp L131; the argument is _lambda *)
    v_gain : W -> b64 -> b64;
    (* pow(double, int) of the C library, Optimizer.cpp L569 *)
    v_pow : b64 -> Z -> b64 }.

  Variable E : env1.
  Variable o : options1.

  (* Optimizer.cpp L481-500: members and locals of the loop; [lgl] is a ghost log of the actions, newest first *)
  Record loop1 := mkLoop1 {
    jJ : b64; jp : b64; lam : b64; mu : b64; dX : b64; dJ : b64; reg : bool; iters : Z; fails : Z; wld : W; lgl : list op }.

  (* Optimizer.cpp L669-682 *)
  Definition evaluate1 (l : loop1) : loop1 :=
    let '(e, w) := v_eval E (wld l) in
    mkLoop1 e (jp l) (lam l) (mu l) (dX l) (dJ l) (reg l) (iters l) (fails l) w (OEval e :: lgl l).

  (* Optimizer.cpp L502-504: the loop condition *)
  Definition continue1 (l : loop1) : bool :=
    (iters l <? maxIter o) && fgt (dX l) (convDeltaX o) && fgt (fabs (dJ l)) (convDeltaJ o).

  (* Optimizer.cpp L506-511 *)
  Definition build1 (l : loop1) : res loop1 :=
    if reg l then Ok l
    else let w := v_build E (wld l) in
         do x <- setInitialLambda o (v_diag E w) (lam l);
         Ok (mkLoop1 (jJ l) (jp l) x (mu l) (dX l) (dJ l) (reg l) (iters l) (fails l) w (lgl l)).

  (* Optimizer.cpp L530-537 and L554-561: a regression *)
  Definition regress (l : loop1) : loop1 :=
    mkLoop1 (jJ l) (jp l) (fmul (lam l) (mu l)) (fmul (mu l) (fz 2)) (dX l) (dJ l) true (iters l) (fails l + 1)
            (v_revert E (wld l)) (ORevert :: lgl l).

  (* Optimizer.cpp L564-576: the new damping after a step that was kept; the comparison u1 > u2 is false for NaN *)
  Definition new_lambda (rho : b64) (l m : b64) : b64 * b64 :=
    if fgt l (fl 2028240960365167 (-104)) then
      let u1 := fdiv (fz 1) (lmGamma o) in
      let u2 := fsub (fz 1) (fmul (fz (lmBeta o - 1)) (v_pow E (fsub (fmul (fz 2) rho) (fz 1)) (lmP o))) in
      (if fgt u1 u2 then fmul l u1 else fmul l u2, fz (lmBeta o))
    else (fl 2535301200456459 (-101), m).

  (* Optimizer.cpp L562-577: the step is kept *)
  Definition keep (rho : b64) (l : loop1) : loop1 :=
    let '(x, m) := new_lambda rho (lam l) (mu l) in
    mkLoop1 (jJ l) (jp l) x m (dX l) (dJ l) false (iters l) (fails l) (wld l) (lgl l).

  (* Optimizer.cpp L126-133 *)
  Definition getLmRho1 (l : loop1) : b64 := fdiv (fsub (jp l) (jJ l)) (v_gain E (wld l) (lam l)).

  (* Optimizer.cpp L539-548: apply the step and evaluate the cost *)
  Definition try_step (l : loop1) : loop1 :=
    let '(d, w) := v_apply E (wld l) in
    let l1 := evaluate1 (mkLoop1 (jJ l) (jp l) (lam l) (mu l) d (dJ l) (reg l) (iters l) (fails l)
                           (v_callback E DESIGN_VARIABLES_UPDATED w) (OApply :: lgl l)) in
    mkLoop1 (jJ l1) (jp l1) (lam l1) (mu l1) (dX l1) (fsub (jp l1) (jJ l1)) (reg l1) (iters l1) (fails l1) (wld l1) (lgl l1).

  (* Optimizer.cpp L549-578 *)
  Definition judge1 (l : loop1) : loop1 :=
    if doLM o then (let rho := getLmRho1 l in if fle rho f0 then regress l else keep rho l) else l.

  (* Optimizer.cpp L580-582 *)
  Definition count1 (l : loop1) : loop1 :=
    mkLoop1 (jJ l) (if flt (jJ l) (jp l) then jJ l else jp l) (lam l) (mu l) (dX l) (dJ l) (reg l) (iters l + 1) (fails l) (wld l) (lgl l).

  (* Optimizer.cpp L505-583: one pass *)
  Definition iteration1 (l : loop1) : res loop1 :=
    do l1 <- build1 l;
    let '(ok, w) := v_solve E (wld l1) (lam l1) in
    let l2 := mkLoop1 (jJ l1) (jp l1) (lam l1) (mu l1) (dX l1) (dJ l1) (reg l1) (iters l1) (fails l1) w (OSolve ok :: lgl l1) in
    Ok (count1 (if ok then judge1 (try_step l2) else regress l2)).

  (* Optimizer.cpp L502-584; [fuel] bounds the recursion, running out of it is a distinct outcome *)
  Fixpoint iterate1 (fuel : nat) (l : loop1) : option (res loop1) :=
    if continue1 l then
      match fuel with
      | O => None
      | S f => match iteration1 l with Ok l' => iterate1 f l' | Throw => Some Throw | UB => Some UB end
      end
    else Some (Ok l).

  (* Optimizer.cpp L482-500: before the loop; [J] is the value of _J left by earlier calls *)
  Definition start1 (J : b64) (w : W) : loop1 :=
    let l := evaluate1 (mkLoop1 J f0 f0 (lmMuInit o) f0 f0 false 0 0 w []) in
    mkLoop1 (jJ l) (jJ l) f0 (lmMuInit o) (fadd (convDeltaX o) (fz 1)) (fadd (convDeltaJ o) (fz 1)) false 0 0
            (v_callback E OPTIMIZATION_INITIALIZED (wld l)) (lgl l).

  (* Optimizer.cpp L585-589 *)
  Definition report1 (l0 l : loop1) : srv := mkSrv (jJ l0) (jJ l) (iters l) (fails l) (lam l) (dX l) (dJ l).

  (* Optimizer.cpp L472-590 *)
  Definition optimize1 (J : b64) (w : W) : option (res (srv * loop1)) :=
    let l0 := start1 J w in
    match iterate1 (Z.to_nat (maxIter o)) l0 with
    | Some (Ok l) => Some (Ok (report1 l0 l, l))
    | Some Throw => Some Throw
    | Some UB => Some UB
    | None => None
    end.
End Loop.
Arguments env1 W : clear implicits.
Arguments loop1 W : clear implicits.
