(** * Line search: aslam_backend/src/LineSearch.cpp and include/aslam/backend/LineSearch.hpp.
    The arithmetic is a parameter ([Num], see Lib_Num.v): the same functions are used with IEEE doubles and with exact reals.
    The cost function is a type of worlds [W] with arbitrary functions: error, gradient and the update of the design variables by a multiple
    of the search direction.
    Not modelled: logging, the evaluation callbacks, options that do not influence the search. *)
From Coq Require Import ZArith List Bool.
From Verif Require Import Lib_Res Lib_Num.
Import ListNotations.

Section LS.
  Context {N : Type} {A : Num N}.
  Notation "a + b" := (nadd a b). Notation "a - b" := (nsub a b). Notation "a * b" := (nmul a b). Notation "a / b" := (ndiv a b).
  Notation "- a" := (nopp a). Notation "a < b" := (nlt a b). Notation "a <= b" := (nle a b).
  Notation "a > b" := (nlt b a) (only parsing). Notation "a >= b" := (nle b a) (only parsing).
  (* in the model only: integer literals *)
  Definition lit (z : Z) : N := nlit z 1.
  Notation zero := (lit 0).

  (* <algorithm>: std::min, std::max *)
  Definition smin (a b : N) : N := if b < a then b else a.
  (* in the model only: helper *)
  Definition smax (a b : N) : N := if a < b then b else a.
  (* util/utils.hpp L22-33: sign (as a number), sqr *)
  Definition sgn (x : N) : N :=
    if zero < x then (if x < zero then zero else lit 1) else (if x < zero then lit (-1) else zero).
  (* same code: util/utils.hpp L22-33 *)
  Definition sqr (x : N) : N := x * x.

  (* LineSearch.cpp L58-59: the reference parameters of dcstep *)
  Record dc := mkDc { stx : N; fx : N; dx : N; sty : N; fy : N; dy : N; stp : N; brackt : bool }.

  (* LineSearch.cpp L71-73, L95-97, L120-125, L179-181: gamma before its sign is fixed; [clip] is the max(0, .) of the third case *)
  Definition cubic_s (theta d1 d2 : N) : N := smax (nabs theta) (smax (nabs d1) (nabs d2)).
  (* same code: LineSearch.cpp L71-73, L95-97, L120-125, L179-181 *)
  Definition cubic_gamma (clip : bool) (theta d1 d2 : N) : N :=
    let s := cubic_s theta d1 d2 in
    let srec := lit 1 / s in
    let rad := sqr (theta * srec) - (d1 * srec) * (d2 * srec) in
    s * nsqrt (if clip then smax zero rad else rad).
  (* LineSearch.cpp L70, L94, L119, L178 *)
  Definition cubic_theta (f1 f2 d1 d2 t : N) : N := lit 3 * (f1 - f2) / t + d1 + d2.

  (* LineSearch.cpp L61-195: the new step and the new bracket flag *)
  Definition dcstep_new (v : dc) (fp dp stpmin stpmax : N) : N * bool :=
    let sgnd := dp * sgn (dx v) in
    if fp > fx v then
      (* L68-86 *)
      let theta := cubic_theta (fx v) fp (dx v) dp (stp v - stx v) in
      let g0 := cubic_gamma false theta (dx v) dp in
      let gamma := if stp v < stx v then - g0 else g0 in
      let r := ((gamma - dx v) + theta) / (((gamma - dx v) + gamma) + dp) in
      let stpc := stx v + r * (stp v - stx v) in
      let stpq := stx v + ((dx v / ((fx v - fp) / (stp v - stx v) + dx v)) / lit 2) * (stp v - stx v) in
      (if nabs (stpc - stx v) < nabs (stpq - stx v) then stpc else stpc + (stpq - stpc) / lit 2, true)
    else if sgnd < zero then
      (* L92-109 *)
      let theta := cubic_theta (fx v) fp (dx v) dp (stp v - stx v) in
      let g0 := cubic_gamma false theta (dx v) dp in
      let gamma := if stp v > stx v then - g0 else g0 in
      let r := ((gamma - dp) + theta) / (((gamma - dp) + gamma) + dx v) in
      let stpc := stp v + r * (stx v - stp v) in
      let stpq := stp v + (dp / (dp - dx v)) * (stx v - stp v) in
      (if nabs (stpc - stp v) > nabs (stpq - stp v) then stpc else stpq, true)
    else if nabs dp < nabs (dx v) then
      (* L113-169 *)
      let theta := cubic_theta (fx v) fp (dx v) dp (stp v - stx v) in
      let g0 := cubic_gamma true theta (dx v) dp in
      let gamma := if stp v > stx v then - g0 else g0 in
      let r := ((gamma - dp) + theta) / ((gamma + (dx v - dp)) + gamma) in
      let stpc := if (r < zero) && negb (neq gamma zero) then stp v + r * (stx v - stp v)
                  else if stp v > stx v then stpmax else stpmin in
      let stpq := stp v + (dp / (dp - dx v)) * (stx v - stp v) in
      if brackt v then
        let f := if nabs (stpc - stp v) < nabs (stpq - stp v) then stpc else stpq in
        (if stp v > stx v then smin (stp v + nlit 66 100 * (sty v - stp v)) f else smax (stp v + nlit 66 100 * (sty v - stp v)) f, true)
      else
        let f := if nabs (stpc - stp v) > nabs (stpq - stp v) then stpc else stpq in
        (smax (smin stpmax f) stpmin, false)
    else if brackt v then
      (* L177-194 *)
      let theta := cubic_theta fp (fy v) (dy v) dp (sty v - stp v) in
      let g0 := cubic_gamma false theta (dy v) dp in
      let gamma := if stp v > sty v then - g0 else g0 in
      let r := ((gamma - dp) + theta) / (((gamma - dp) + gamma) + dy v) in
      (stp v + r * (sty v - stp v), true)
    else (if stp v > stx v then stpmax else stpmin, false).

  (* LineSearch.cpp L58-216; the interval update is L197-212 *)
  Definition dcstep (v : dc) (fp dp stpmin stpmax : N) : dc :=
    let sgnd := dp * sgn (dx v) in
    let '(s, b) := dcstep_new v fp dp stpmin stpmax in
    if fp > fx v then mkDc (stx v) (fx v) (dx v) (stp v) fp dp s b
    else if sgnd < zero then mkDc (stp v) fp dp (stx v) (fx v) (dx v) s b
    else mkDc (stp v) fp dp (sty v) (fy v) (dy v) s b.

  (* LineSearch.cpp L219-231: cubicMin (Eigen evaluates the 2x2 product row by row) *)
  Definition cubicMin (a fa fpa b fb c fc : N) : N :=
    let db := b - a in let dc_ := c - a in
    let denom := sqr (db * dc_) * (db - dc_) in
    let d00 := sqr dc_ in let d01 := - sqr db in let d10 := (- d00) * dc_ in let d11 := (- d01) * db in
    let x := fb - fa - fpa * db in let y := fc - fa - fpa * dc_ in
    let A0 := (d00 * x + d01 * y) / denom in let A1 := (d10 * x + d11 * y) / denom in
    let radical := sqr A1 - lit 3 * A0 * fpa in
    a + ((- A1) + nsqrt radical) / (lit 3 * A0).

  (* LineSearch.cpp L233-237 *)
  Definition quadMin (a fa fpa b fb : N) : N :=
    let db := b - a in
    let B := (fb - fa - fpa * db) / sqr db in
    a - nlit 5 10 * fpa / B.

  (* LineSearch.hpp L105 *)
  Inductive dstatus := RUNNING | CONVERGED | WARNING.

  (* LineSearch.hpp L133-174: the members of Dcsrch *)
  Record dcsrch := mkDs {
    s_dc : dc; s_status : dstatus; s_stage : nat;
    s_xtol : N; s_min : N; s_max : N; s_finit : N; s_gtest : N; s_neg : N;
    s_stmin : N; s_stmax : N; s_width : N; s_width1 : N }.

  (* LineSearch.cpp L240-270: the constructor; SM_ASSERT_LT is always checked, the debug assertions L260-264 are left out *)
  Definition dcsrch_new (init e d mn mx ftol xtol gtol : N) : res dcsrch :=
    if d < zero then
      Ok (mkDs (mkDc zero e d zero e d init false) RUNNING 0 xtol mn mx e (ftol * d) ((- gtol) * d)
               zero (init + lit 4 * init) (mx - mn) ((mx - mn) * lit 2))
    else Throw.

  (* LineSearch.cpp L279-319: the tests at the current step; returns the new stage and status *)
  Definition dcsrch_test (s : dcsrch) (e d : N) : nat * dstatus :=
    let st := stp (s_dc s) in
    let ftest := s_finit s + st * s_gtest s in
    let stage := if (s_stage s =? 1)%nat && (e <= ftest) && (d >= zero) then 2%nat else s_stage s in
    let b := brackt (s_dc s) in
    let w :=
      (b && ((st <= s_stmin s) || (st >= s_stmax s))) ||
      (b && (s_stmax s - s_stmin s <= s_xtol s * s_stmax s)) ||
      (neq st (s_max s) && (e <= ftest) && (d <= s_gtest s)) ||
      (neq st (s_min s) && ((e > ftest) || (d >= s_gtest s))) in
    let status := if w then WARNING else s_status s in
    (stage, if (e <= ftest) && (nabs d <= s_neg s) then CONVERGED else status).

  (* LineSearch.cpp L325-350: the call of dcstep, with the modified function in the first stage *)
  Definition dcsrch_move (s : dcsrch) (stage : nat) (e d : N) : dc :=
    let v := s_dc s in
    let ftest := s_finit s + stp v * s_gtest s in
    let gt := s_gtest s in
    if (stage =? 1)%nat && (e <= fx v) && (e > ftest) then
      let r := dcstep (mkDc (stx v) (fx v - stx v * gt) (dx v - gt) (sty v) (fy v - sty v * gt) (dy v - gt) (stp v) (brackt v))
                      (e - stp v * gt) (d - gt) (s_stmin s) (s_stmax s) in
      mkDc (stx r) (fx r + stx r * gt) (dx r + gt) (sty r) (fy r + sty r * gt) (dy r + gt) (stp r) (brackt r)
    else dcstep v e d (s_stmin s) (s_stmax s).

  (* LineSearch.cpp L373, L379: assignment to _stepLength *)
  Definition set_stp (v : dc) (x : N) : dc := mkDc (stx v) (fx v) (dx v) (sty v) (fy v) (dy v) x (brackt v).

  (* LineSearch.cpp L352-379: bisection, the new interval, forcing the step into the bounds *)
  Definition dcsrch_bound (s : dcsrch) (stage : nat) (v : dc) : dcsrch :=
    let dxy := sty v - stx v in
    let st1 := if brackt v && (nabs dxy >= nlit 66 100 * s_width1 s) then stx v + nlit 5 10 * dxy else stp v in
    let '(w, w1) := if brackt v then (nabs dxy, s_width s) else (s_width s, s_width1 s) in
    let '(mn, mx) := if brackt v then (smin (stx v) (sty v), smax (stx v) (sty v))
                     else (st1 + nlit 11 10 * (st1 - stx v), st1 + lit 4 * (st1 - stx v)) in
    let st2 := smin (smax st1 (s_min s)) (s_max s) in
    let st3 := if (brackt v && ((st2 <= s_min s) || (st2 >= s_max s))) ||
                  (brackt v && (s_max s - s_min s <= s_xtol s * s_max s)) then stx v else st2 in
    mkDs (set_stp v st3) (s_status s) stage (s_xtol s) (s_min s) (s_max s) (s_finit s) (s_gtest s) (s_neg s) mn mx w w1.

  (* LineSearch.cpp L272-384: updateStepLength; returns the step and the new state *)
  Definition updateStepLength (s : dcsrch) (e d : N) : N * dcsrch :=
    match s_stage s with
    | O => (stp (s_dc s), mkDs (s_dc s) (s_status s) 1 (s_xtol s) (s_min s) (s_max s) (s_finit s) (s_gtest s) (s_neg s)
                               (s_stmin s) (s_stmax s) (s_width s) (s_width1 s))
    | _ =>
      let '(stage, status) := dcsrch_test s e d in
      let s1 := mkDs (s_dc s) status stage (s_xtol s) (s_min s) (s_max s) (s_finit s) (s_gtest s) (s_neg s)
                     (s_stmin s) (s_stmax s) (s_width s) (s_width1 s) in
      match status with
      | RUNNING => let s2 := dcsrch_bound s1 stage (dcsrch_move s1 stage e d) in (stp (s_dc s2), s2)
      | _ => (stp (s_dc s), s1)
      end
    end.

  (* LineSearch.hpp L177-190 *)
  Record lsoptions := mkLsOpt {
    c1 : N; c2 : N; maxStep : N; minStep : N; xtol : N; initStep : N; nWolfe1 : nat; nWolfe2 : nat; nZoom : nat }.

  (* LineSearch.hpp L182-190: the default values *)
  Definition default_ls : lsoptions :=
    mkLsOpt (nlit 1 10000) (nlit 9 10) (lit 50) (nlit 1 100000000) (nlit 1 100000000000000) (lit 1) 30 10 10.

  (* LineSearch.cpp L406-416 *)
  Definition check_ls (o : lsoptions) : bool :=
    (c1 o >= zero) && (c2 o >= c1 o) && (maxStep o >= zero) && (minStep o >= zero) && (xtol o >= zero) && (initStep o > zero) &&
    (0 <? nWolfe1 o)%nat && (0 <? nWolfe2 o)%nat && (0 <? nZoom o)%nat.

  Section Search.
    Context {W G : Type}.
    (* util/CostFunctionInterface.hpp and util/utils.hpp L119-135: evaluateError, computeGradient, applyStateUpdate by ds times the search
       direction; [slope] is computeErrorDerivative (LineSearch.cpp L649-651): the gradient times the search direction *)
    Variables (errorOf : W -> N) (gradOf : W -> G) (slope : G -> N) (moveBy : W -> N -> W).
    Variable o : lsoptions.

    (* LineSearch.hpp L332-359: the members of LineSearch *)
    Record lstate := mkLS {
      l_grad : G; l_step : N; l_error : N; l_errorOld : N; l_derror : N; l_eOut : bool; l_dOut : bool; l_world : W }.

    (* LineSearch.hpp L388-395: the accessors assert that the values are up to date *)
    Definition getError (l : lstate) : res N := if l_eOut l then Throw else Ok (l_error l).
    (* same code: LineSearch.hpp L388-395 *)
    Definition getErrorDerivative (l : lstate) : res N := if l_dOut l then Throw else Ok (l_derror l).

    (* LineSearch.cpp L486-496 with a search direction along which [slope] is the derivative *)
    Definition setSearchDirection (l : lstate) : res lstate :=
      let d := slope (l_grad l) in
      if d <= zero then Ok (mkLS (l_grad l) zero (l_error l) (l_errorOld l) d (l_eOut l) false (l_world l)) else Throw.

    (* LineSearch.cpp L499-520 *)
    Definition applyStateUpdate (s : N) (l : lstate) : lstate :=
      let ds := s - l_step l in
      if negb (neq ds zero)
      then mkLS (l_grad l) s (l_error l) (l_errorOld l) (l_derror l) true true (moveBy (l_world l) ds)
      else mkLS (l_grad l) s (l_error l) (l_errorOld l) (l_derror l) (l_eOut l) (l_dOut l) (l_world l).

    (* LineSearch.cpp L523-531 *)
    Definition updateError (l : lstate) : lstate :=
      if l_eOut l then mkLS (l_grad l) (l_step l) (errorOf (l_world l)) (l_errorOld l) (l_derror l) false (l_dOut l) (l_world l) else l.

    (* LineSearch.cpp L533-546 *)
    Definition updateErrorDerivative (l : lstate) : lstate :=
      if l_dOut l then let g := gradOf (l_world l) in mkLS g (l_step l) (l_error l) (l_errorOld l) (slope g) (l_eOut l) false (l_world l) else l.

    (* LineSearch.cpp L557-592: the trial step of zoom number i *)
    Definition zoom_trial (i : nat) (lo hi elo ehi dlo srec erec : N) : N :=
      let d := hi - lo in
      let '(a, b) := if d < zero then (hi, lo) else (lo, hi) in
      let cubicchk := nlit 2 10 * d in
      let sj := cubicMin lo elo dlo hi ehi srec erec in
      if (i =? 0)%nat || nnan sj || (sj > b - cubicchk) || (sj < a + cubicchk) then
        let quadchk := nlit 1 10 * d in
        let sq := quadMin lo elo dlo hi ehi in
        if nnan sq || (sq > b - quadchk) || (sq < a + quadchk) then lo + nlit 5 10 * d else sq
      else sj.

    (* LineSearch.cpp L556-644: the loop of zoom; [n] is the number of iterations left *)
    Fixpoint zoom_loop (n i : nat) (lo hi elo ehi dlo srec erec e0 d0 : N) (l : lstate) : res (bool * lstate) :=
      match n with
      | O => Ok (false, l)
      | S n' =>
        let sj := zoom_trial i lo hi elo ehi dlo srec erec in
        let l1 := updateError (applyStateUpdate sj l) in
        do ej <- getError l1;
        if (ej > e0 + c1 o * sj * dlo) || (ej >= elo) then
          zoom_loop n' (S i) lo sj elo ej dlo hi ehi e0 d0 l1
        else
          let l2 := updateErrorDerivative l1 in
          do dj <- getErrorDerivative l2;
          if nabs dj <= (- c2 o) * d0 then Ok (true, l2)
          else if dj * (hi - lo) >= zero then zoom_loop n' (S i) sj lo ej elo dj hi ehi e0 d0 l2
          else zoom_loop n' (S i) sj hi ej ehi dj lo elo e0 d0 l2
      end.
    (* LineSearch.cpp L548-647 *)
    Definition zoom (lo hi elo ehi dlo e0 d0 : N) (l : lstate) : res (bool * lstate) :=
      zoom_loop (nZoom o) 0 lo hi elo ehi dlo zero e0 e0 d0 l.

    (* LineSearch.cpp L684-709: the loop of lineSearchWolfe1; returns whether dcsrch converged and the number of iterations left *)
    Fixpoint wolfe1_loop (n : nat) (s : dcsrch) (l : lstate) : res (bool * nat * lstate) :=
      match n with
      | O => Ok (false, O, l)
      | S n' =>
        do e <- getError l; do d <- getErrorDerivative l;
        let '(st, s') := updateStepLength s e d in
        match s_status s' with
        | RUNNING => wolfe1_loop n' s' (updateErrorDerivative (updateError (applyStateUpdate st l)))
        | CONVERGED => Ok (true, n', l)
        | WARNING => Ok (false, n', l)
        end
      end.

    (* LineSearch.cpp L660-664, L731-736: the first step from the last decrease; [cap] is maxStepLength in wolfe1, initialStepLength in wolfe2 *)
    Definition first_step (cap : N) (l : lstate) : N :=
      if negb (nnan (l_errorOld l)) && negb (neq (l_derror l) zero) then
        let s := smin cap (nlit 101 100 * lit 2 * (l_error l - l_errorOld l) / l_derror l) in
        if s < zero then initStep o else s
      else initStep o.

    (* LineSearch.cpp L666, L738: _errorOld = _error *)
  Definition remember (l : lstate) : lstate :=
      mkLS (l_grad l) (l_step l) (l_error l) (l_error l) (l_derror l) (l_eOut l) (l_dOut l) (l_world l).

    (* LineSearch.cpp L654-723 *)
    Definition lineSearchWolfe1 (l : lstate) : res (bool * lstate) :=
      do e <- getError l; do d <- getErrorDerivative l;
      if nnan e || nnan d then Throw else
      let st := first_step (maxStep o) l in
      let l1 := remember l in
      if negb ((st >= minStep o) && (st <= maxStep o)) then Throw else
      if neq (l_derror l1) zero then Ok (true, l1) else
      do s <- dcsrch_new st e d (minStep o) (maxStep o) (c1 o) (xtol o) (c2 o);
      do r <- wolfe1_loop (nWolfe1 o) s l1;
      let '(ok, rest, l2) := r in
      if (rest =? 0)%nat then Ok (false, l2) else Ok (ok, l2).

    (* LineSearch.cpp L765-814: the loop of lineSearchWolfe2 *)
    Fixpoint wolfe2_loop (n i : nat) (mn mx emn emx dmn e0 d0 : N) (l : lstate) : res (bool * lstate) :=
      match n with
      | O => Ok (false, l)
      | S n' =>
        if neq mx zero then Ok (false, l) else
        if (emx > e0 + c1 o * mx * d0) || ((emx >= emn) && (0 <? i)%nat) then zoom mn mx emn emx dmn e0 d0 l
        else
          let l1 := updateErrorDerivative l in
          do dmx <- getErrorDerivative l1;
          if nabs dmx <= (- c2 o) * d0 then Ok (true, l1)
          else if dmx >= zero then zoom mx mn emx emn dmx e0 d0 l1
          else
            let mx' := lit 2 * mx in
            let l2 := updateError (applyStateUpdate mx' l1) in
            do e <- getError l2;
            wolfe2_loop n' (S i) mx mx' emx e dmx e0 d0 l2
      end.

    (* LineSearch.cpp L725-824 *)
    Definition lineSearchWolfe2 (l : lstate) : res (bool * lstate) :=
      do e <- getError l; do d <- getErrorDerivative l;
      if nnan e || nnan d then Throw else
      let mx := first_step (initStep o) l in
      let l1 := remember l in
      if neq (l_derror l1) zero then Ok (true, l1) else
      if neq mx zero then Ok (false, l1) else
      let e0 := l_error l1 in let d0 := l_derror l1 in
      let l2 := updateError (applyStateUpdate mx l1) in
      do emx <- getError l2;
      wolfe2_loop (nWolfe2 o) 0 zero mx e0 emx d0 e0 d0 l2.

    (* LineSearch.cpp L826-849; dvstate.restore() puts the parameters of all design variables back (see C15, C16); _gradient and the two
       flags are not restored *)
    Definition lineSearchWolfe12 (l : lstate) : res (bool * lstate) :=
      do r <- lineSearchWolfe1 l;
      let '(ok, l1) := r in
      if ok then Ok (true, l1)
      else lineSearchWolfe2 (mkLS (l_grad l1) zero (l_error l) (l_errorOld l) (l_derror l) (l_eOut l1) (l_dOut l1) (l_world l)).
  End Search.
End LS.
Arguments dc N : clear implicits. Arguments dcsrch N : clear implicits. Arguments lsoptions N : clear implicits. Arguments lstate N W G : clear implicits.
