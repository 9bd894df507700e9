(** * Optimizer (v1): the loop of Optimizer::optimizeDogLeg over an arbitrary environment
    aslam_backend/src/Optimizer.cpp ("O").  The environment (error terms, linear solver with Schur complement, design variables) is a type of worlds
    [W] with arbitrary functions on it.  Numbers are real numbers; costs and quotients that IEEE arithmetic turns into NaN or infinities are
    explicit ([ext], [NotNum]).  Not modelled: rounding, console output, timers, C++ exceptions thrown by user code. *)
From Coq Require Import ZArith Reals List Bool.
From Verif Require Import Lib_Ring Lib_Real Policy_Model.
Import ListNotations.
Open Scope R_scope.

(* outcome: a result; a NaN or an infinity where the code goes on with it; undefined behaviour; the recursion bound was too small *)
(* in the model only: outcomes *)
Inductive out (A : Type) := Fine (a : A) | NotNum | Undef | NoFuel.
Arguments Fine {A} a. Arguments NotNum {A}. Arguments Undef {A}. Arguments NoFuel {A}.
(* in the model only: sequencing of outcomes *)
Definition obind {A B} (x : out A) (f : A -> out B) : out B :=
  match x with Fine a => f a | NotNum => NotNum | Undef => Undef | NoFuel => NoFuel end.

(* O L390: _p_J - _J *)
Definition xsub (p : R) (c : ext) : ext := match c with Fin r => Fin (p - r) | PInf => NInf | NInf => PInf | Nan => Nan end.
(* O L390: division by L0 (a zero counts as +0) *)
Definition xdivr (a : ext) (b : R) : ext :=
  match a with Fin r => xdiv r b | Nan => Nan | PInf => if rlt b 0 then NInf else PInf | NInf => if rlt b 0 then PInf else NInf end.
(* O L390-392 *)
Definition ratio (p : R) (c : ext) (L0 : R) : ext := match xdivr (xsub p c) L0 with Nan => Fin (-1) | x => x end.

(* aslam_backend/include/aslam/backend/OptimizerOptions.hpp L29-66: the options read by optimizeDogLeg *)
Record dopts := mkDopts { o_dJ : R; o_dX : R; o_max : Z; o_fails : Z }.

(* ghost record of one trial step: radius, type, steepest descent and Gauss-Newton step, the step taken, predicted decrease L0, cost before,
   cost after, whether it was kept, and the system it was computed from *)
Record trial := mkTrial {
  t_delta : R; t_type : steptype; t_sd : vec R; t_gn : option (vec R); t_dx : vec R; t_L0 : R; t_J : R; t_cost : ext; t_kept : bool; t_sys : mat R * vec R }.

Section Loop.
  Context {W : Type}.
  Record denv := mkDenv {
    (* evaluateError, O L669-682 *)
    y_eval : W -> ext * W;
    (* buildGnMatrices, O L684-696: _H as it is stored (only blocks on and above the diagonal, JacobianContainerSparseImpl.hpp evaluateHessian) and _rhs *)
    y_build : W -> (mat R * vec R) * W;
    (* applySchurComplement with _lambda = 0 and _solver->solve, O L288-307; the QR solver, O L323 *)
    y_solve : W -> bool * vec R * W;
    y_fallback : W -> bool * vec R * W;
    (* O L332-333: the default solver is replaced by the QR solver *)
    y_robust : W -> W;
    (* applyStateUpdate, O L617-650: returns the largest entry in absolute value; revertLastStateUpdate, O L652-657 *)
    y_apply : W -> vec R -> R * W;
    y_revert : W -> W }.
  Variable E : denv.
  Variable o : dopts.
  (* the number of rows of _H, and of _dx, O L114-118: fewer when variables are marginalised *)
  Variable n nd : nat.

  (* O L211-248: members and locals of the loop; the log is ghost state, newest first *)
  Record dstate := mkDstate { sJ : R; sp : R; sdelta : R; sdX : R; sdJ : R; ssys : mat R * vec R; sit : Z; sw : W; slog : list trial }.

  (* O L286-341: the Gauss-Newton step.  linearSolverFailCounter is a local of the pass and the step is computed once per pass: it is 0 here *)
  Definition gn_step (w : W) (sd : vec R) : vec R * W :=
    let '(ok, g, w1) := y_solve E w in
    if ok then (g, w1)
    else let '(ok2, g2, w2) := y_fallback E w1 in
         (if ok2 then g2 else sd, if (0 >? o_fails o)%Z then y_robust E w2 else w2).

  (* O L276-376: the step that is tried.  _dx_gn has nd entries, _dx_sd has n: their difference is undefined unless these agree.
     In L0 of the last case 1/2 is an integer division: the first term is zero *)
  Definition pick (delta sdn scl J : R) (sd : vec R) (gn : option (vec R)) (w : W) : out (R * vec R * R * steptype * option (vec R) * W) :=
    if rle delta sdn && negb (if Req_EM_T delta 0 then true else false) then
      Fine (delta, vscale (delta / sdn) sd, delta * (2 * sdn - delta) / (2 * scl), TSD, gn, w)
    else
      let '(g, w1) := match gn with Some g => (g, w) | None => gn_step w sd end in
      if (if Req_EM_T delta 0 then negb (Nat.eqb nd n) else false) then Undef
      else
        let d1 := if Req_EM_T delta 0 then norm n (vadd sd (vscale (1 / 2) (vsub g sd))) else delta in
        if rle (norm n g) d1 then Fine (d1, g, J, TGN, Some g, w1)
        else if negb (Nat.eqb nd n) then Undef
        else let d := vsub g sd in
          match dl_beta (vdot n sd d) (vdot n d d) (d1 * d1 - sdn * sdn) with
          | None => NotNum
          | Some be => Fine (d1, vadd sd (vscale be d), be * (2 - be) * J, TDL, Some g, w1)
          end.

  (* O L409-427: the new radius *)
  Definition new_delta (rho : ext) (delta : R) (ty : steptype) (dx : vec R) (gn : option (vec R)) : R :=
    if xgt rho (3 / 4) then (if rlt delta (3 * norm n dx) then 3 * norm n dx else delta)
    else if xgt rho 0 && xlt rho (1 / 4) then delta / 2
    else if xle rho 0 then (match ty, gn with TGN, Some g => norm n g / 2 | _, _ => delta / 2 end)
    else delta.

  (* O L275-445: one pass of the inner loop *)
  Definition attempt (s : dstate) (sd : vec R) (sdn scl : R) (gn : option (vec R)) : out (dstate * option (vec R) * ext) :=
    obind (pick (sdelta s) sdn scl (sJ s) sd gn (sw s)) (fun '(d1, dx, L0, ty, gn1, w0) =>
    let '(dX, w1) := y_apply E w0 dx in
    let '(c, w2) := y_eval E w1 in
    let rho := ratio (sp s) c L0 in
    let kept := xgt rho 0 in
    let '(sys, j, w3) := if kept then let '(sys, w3) := y_build E w2 in (sys, c, w3)
                         else let '(c2, w4) := y_eval E (y_revert E w2) in (ssys s, c2, w4) in
    match j with
    | Fin j =>
      let p := if rlt j (sp s) then j else sp s in
      Fine (mkDstate p p (new_delta rho d1 ty dx gn1) dX (sp s - j) sys (sit s) w3
              (mkTrial d1 ty sd gn1 dx L0 (sp s) c kept (ssys s) :: slog s), gn1, rho)
    | _ => NotNum
    end).

  (* O L274-447: the inner loop *)
  Fixpoint inner (fuel : nat) (s : dstate) (sd : vec R) (sdn scl : R) (gn : option (vec R)) : out dstate :=
    match fuel with
    | O => NoFuel
    | S f => obind (attempt s sd sdn scl gn) (fun '(s1, gn1, rho) =>
               if xlt rho 0 && rlt (o_dX o) (sdelta s1) then inner f s1 sd sdn scl gn1 else Fine s1)
    end.

  (* O L250-252 *)
  Definition continue_ (s : dstate) : bool := (sit s <? o_max o)%Z && rlt (o_dX o) (sdX s) && rlt (o_dJ o) (Rabs (sdJ s)).

  (* O L254-454: one pass of the outer loop *)
  Definition pass (fuel : nat) (s : dstate) : out dstate :=
    let '(H, r) := ssys s in
    let Hr := mvmul n H r in
    if Req_EM_T (vdot n Hr Hr) 0 then NotNum
    else let scl := vdot n r r / vdot n Hr Hr in
         let sd := vscale scl r in
         obind (inner fuel s sd (norm n sd) scl None) (fun s1 =>
         Fine (mkDstate (sJ s1) (sp s1) (sdelta s1) (sdX s1) (sdJ s1) (ssys s1) (sit s1 + 1) (sw s1) (slog s1))).

  (* O L250-454; [k] bounds the passes, [fuel] the passes of each inner loop *)
  Fixpoint passes (k fuel : nat) (s : dstate) : out dstate :=
    if continue_ s then match k with O => NoFuel | S k' => obind (pass fuel s) (passes k' fuel) end else Fine s.

  (* O L209-237: before the loop *)
  Definition dstart (w : W) : out dstate :=
    let '(c, w1) := y_eval E w in
    match c with
    | Fin J => let '(sys, w2) := y_build E w1 in Fine (mkDstate J J 0 (o_dX o + 1) (o_dJ o + 1) sys 0 w2 [])
    | _ => NotNum
    end.

  (* aslam_backend/include/aslam/backend/backend.hpp L14-27; O L456-459 *)
  Record dreport := mkDreport { r_JStart : R; r_JFinal : R; r_it : Z; r_dX : R; r_dJ : R }.

  (* O L198-465 *)
  Definition optimizeDogLeg (fuel : nat) (w : W) : out (dreport * dstate) :=
    obind (dstart w) (fun s0 => obind (passes (Z.to_nat (o_max o)) fuel s0) (fun s =>
    Fine (mkDreport (sJ s0) (sJ s) (sit s) (sdX s) (sdJ s), s))).
End Loop.
Arguments denv W : clear implicits.
Arguments dstate W : clear implicits.
