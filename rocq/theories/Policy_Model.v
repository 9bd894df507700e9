(** * Trust-region policies of Optimizer2: Levenberg-Marquardt, Gauss-Newton, line search and dog-leg, as state machines over the calls
    that Optimizer2 makes. Numbers are real numbers; quotients that IEEE arithmetic turns into NaN or infinities are explicit
    ([ext], [DLNaN]). What the linear solver does is an input of each call.
    Not modelled: rounding, overflow, printState. *)
From Coq Require Import Reals List Bool.
From Verif Require Import Lib_Ring Lib_Real.
Import ListNotations.
Open Scope R_scope.

(* quotients of doubles: finite, infinite or NaN *)
(* in the model only: doubles *)
Inductive ext := Fin (r : R) | PInf | NInf | Nan.
(* IEEE division of finite numbers (the sign of a zero divisor is taken as +) *)
(* in the model only: operator/ of doubles *)
Definition xdiv (a b : R) : ext :=
  if Req_EM_T b 0 then (if Req_EM_T a 0 then Nan else if Rlt_dec 0 a then PInf else NInf) else Fin (a / b).
(* in the model only: operator<= of doubles *)
Definition rle (a b : R) : bool := if Rle_dec a b then true else false.
(* in the model only: operator< of doubles *)
Definition rlt (a b : R) : bool := if Rlt_dec a b then true else false.
(* x > b, x < b, x <= b for an extended x (false on NaN) *)
(* in the model only: comparisons of doubles *)
Definition xgt (x : ext) (b : R) : bool := match x with Fin r => rlt b r | PInf => true | _ => false end.
(* in the model only: comparisons of doubles *)
Definition xlt (x : ext) (b : R) : bool := match x with Fin r => rlt r b | NInf => true | _ => false end.
(* in the model only: comparisons of doubles *)
Definition xle (x : ext) (b : R) : bool := match x with Fin r => rle r b | NInf => true | _ => false end.

(* in the model only: Eigen norm() *)
Definition norm (n : nat) (v : vec R) : R := sqrt (vdot n v v).

(* aslam_backend/include/aslam/backend/LinearSystemSolver.hpp (rhs, rhsJtJrhs): what a built system exposes to the policies *)
Record system := mkSystem { rhs : vec R; rJtJr : R }.

(* one call of TrustRegionPolicy::solveSystem (TrustRegionPolicy.cpp L38-49): the cost, the flag, the system that buildSystem would build
   at the present state of the design variables, and what _solver->solveSystem would return and leave in its argument *)
Record call := mkCall { cJ : R; cpf : bool; cfresh : system; csolve : bool * vec R }.

(* TrustRegionPolicy.hpp: _J, _p_J, _isFirstIteration *)
Record base := mkBase { bJ : R; bpJ : R; bfirst : bool }.
(* TrustRegionPolicy.cpp L29-35 *)
Definition base_start (J : R) : base := mkBase J J true.
(* TrustRegionPolicy.cpp L40-44 *)
Definition base_enter (b : base) (c : call) : base := mkBase (cJ c) (if cpf c then bpJ b else bJ b) (bfirst b).
(* TrustRegionPolicy.cpp L47 *)
Definition base_leave (b : base) : base := mkBase (bJ b) (bpJ b) false.
(* TrustRegionPolicy.cpp L51-54 *)
Definition get_dJ (b : base) : R := bpJ b - bJ b.

(** ** Levenberg-Marquardt *)

(* LevenbergMarquardtTrustRegionPolicy.cpp L7-32; the exponent is taken non-negative *)
Record lmparams := mkLmParams { lambdaInit : R; gamma : R; beta : R; p : nat; muInit : R }.
(* L7-15 *)
Definition lm_defaults : lmparams := mkLmParams (1 / 1000) 3 2 3 2.

(* members of LevenbergMarquardtTrustRegionPolicy; lambda = None stands for NaN; lm_sys is the system held by the solver *)
(* LevenbergMarquardtTrustRegionPolicy.hpp L38-48 *)
Record lm := mkLm { lm_base : base; lambda : option R; mu : R; lm_sys : system }.

(* LevenbergMarquardtTrustRegionPolicy.cpp L38-47 *)
Definition lm_start (P : lmparams) (J : R) (sys : system) : lm := mkLm (base_start J) (Some (lambdaInit P)) (muInit P) sys.

(* LevenbergMarquardtTrustRegionPolicy.cpp L105-111 *)
Definition getLmRho (n : nat) (s : lm) (dx : vec R) : ext :=
  match lambda s with
  | None => Nan
  | Some l => xdiv (get_dJ (lm_base s)) (vdot n dx (vadd (vscale l dx) (rhs (lm_sys s))))
  end.

(* LevenbergMarquardtTrustRegionPolicy.cpp L74-79: the factor of a successful step; for rho = +infinity the second candidate is -infinity
   (beta > 1), for rho = NaN it is NaN and wins, because the comparison is false *)
Definition lm_factor (P : lmparams) (rho : ext) : option R :=
  let u1 := 1 / gamma P in
  match rho with
  | Fin r => let u2 := 1 - (beta P - 1) * (2 * r - 1) ^ p P in Some (if rlt u2 u1 then u1 else u2)
  | PInf => Some u1
  | NInf => None
  | Nan => None
  end.

(* LevenbergMarquardtTrustRegionPolicy.cpp L61-84: new lambda, new mu, whether the system is rebuilt *)
Definition lm_update (P : lmparams) (pf : bool) (rho : ext) (l : option R) (m : R) : option R * R * bool :=
  if pf then (option_map (fun x => x * (m * 2)) l, m * 2, false)
  else if xle rho 0 then (option_map (fun x => x * (m * 10)) l, m * 10, false)
  else match l with
       | Some x => if rlt (1 / 10 ^ 16) x
                   then (option_map (fun f => x * f) (lm_factor P rho), beta P, true)
                   else (Some (1 / 10 ^ 15), m, true)
       | None => (Some (1 / 10 ^ 15), m, true)
       end.

(* LevenbergMarquardtTrustRegionPolicy.cpp L50-89 inside TrustRegionPolicy.cpp L38-49: returns success, outDx, new state *)
Definition lm_solve (n : nat) (P : lmparams) (s : lm) (dx : vec R) (c : call) : bool * vec R * lm :=
  let b := base_enter (lm_base s) c in
  let s1 := mkLm b (lambda s) (mu s) (lm_sys s) in
  let '(l', m', build) :=
    if bfirst b then (lambda s, mu s, true) else lm_update P (cpf c) (getLmRho n s1 dx) (lambda s) (mu s) in
  (fst (csolve c), snd (csolve c), mkLm (base_leave b) l' m' (if build then cfresh c else lm_sys s)).

(** ** Gauss-Newton *)

(* GaussNewtonTrustRegionPolicy.cpp L19-26 (success, outDx, system held by the solver) *)
Definition gn_solve (c : call) : bool * vec R * system := (fst (csolve c), snd (csolve c), cfresh c).

(** ** Line search *)

(* LineSearchTrustRegionPolicy.cpp: members *)
Record ls := mkLs { ls_base : base; scale : R; ls_sys : system }.
(* LineSearchTrustRegionPolicy.cpp L15-17 with TrustRegionPolicy.cpp L29-35: _currentScale is left as it is *)
Definition ls_start (J sc : R) (sys : system) : ls := mkLs (base_start J) sc sys.
(* LineSearchTrustRegionPolicy.cpp L20-40 *)
Definition ls_solve (step : R) (reset : bool) (s : ls) (dx : vec R) (c : call) : bool * vec R * ls :=
  let b := base_enter (ls_base s) c in
  if bfirst b || negb (cpf c) then
    (fst (csolve c), snd (csolve c),
     mkLs (base_leave b) (if bfirst b || reset then 1 else Rmin 1 (scale s / step)) (cfresh c))
  else (true, vscale step dx, mkLs (base_leave b) (scale s * step) (ls_sys s)).

(** ** Dog-leg *)

(* DogLegTrustRegionPolicy.cpp L53, L86, L113, L135: the values of _stepType *)
Inductive steptype := TNone | TSD | TGN | TDL.

(* members of DogLegTrustRegionPolicy; d_gn = None is the empty vector before the first solve *)
(* DogLegTrustRegionPolicy.hpp L32-43 *)
Record dl := mkDl {
  d_base : base; d_dx : vec R; d_sd : vec R; d_gn : option (vec R);
  d_sdn : R; d_gnn : R; d_L0 : R; d_scale : R; d_delta : R; d_type : steptype; d_sys : system }.

(* DogLegTrustRegionPolicy.cpp L11-22; the vectors and _stepType keep their old contents (the std::string there is a local) *)
Definition dl_start (s : dl) (J : R) : dl :=
  mkDl (base_start J) (d_dx s) (d_sd s) (d_gn s) 0 0 0 0 0 (d_type s) (d_sys s).

(* a policy object before its first use *)
(* in the model only: DogLegTrustRegionPolicy.hpp L32-43 after construction *)
Definition dl_new : dl :=
  mkDl (base_start 0) (fun _ => 0) (fun _ => 0) None 0 0 0 0 0 TNone (mkSystem (fun _ => 0) 0).

(* DogLegTrustRegionPolicy.cpp L39-57: the new radius *)
Definition dl_radius (n : nat) (s : dl) (rho : ext) : R :=
  if xgt rho (3 / 4) then (if rle (d_delta s) (3 * norm n (d_dx s)) then 3 * norm n (d_dx s) else d_delta s)
  else if xgt rho 0 && xlt rho (1 / 4) then d_delta s / 2
  else if xle rho 0 then (match d_type s with TGN => d_gnn s / 2 | _ => d_delta s / 2 end)
  else d_delta s.

(* DogLegTrustRegionPolicy.cpp L121-131: the interpolation coefficient; None when the square root is of a negative number (NaN) *)
Definition dl_beta (c D excess : R) : option R :=
  let disc := c * c + D * excess in
  if rlt disc 0 then None
  else Some (if rle c 0 then (- c + sqrt disc) / D else excess / (c + sqrt disc)).

(* outcome of a call: success flag, outDx and new state; NaN in the step; or access to an empty vector *)
(* in the model only: outcomes *)
Inductive dlres := DLok (ok : bool) (dx : vec R) (s : dl) | DLNaN | DLUB.

(* DogLegTrustRegionPolicy.cpp L25-142 inside TrustRegionPolicy.cpp L38-49 *)
Definition dl_solve (n : nat) (s : dl) (dx : vec R) (c : call) : dlres :=
  let b := base_enter (d_base s) c in
  let rho := xdiv (get_dJ b) (d_L0 s) in
  let delta := if bfirst b then d_delta s else dl_radius n s rho in
  let sys := if cpf c then d_sys s else cfresh c in
  if negb (cpf c) && (if Req_EM_T (rJtJr sys) 0 then true else false) then DLNaN else
  let scl := if cpf c then d_scale s else vdot n (rhs sys) (rhs sys) / rJtJr sys in
  let sd := if cpf c then d_sd s else vscale scl (rhs sys) in
  let sdn := if cpf c then d_sdn s else norm n sd in
  let gnComputed := cpf c in
  if rle delta sdn && negb (if Req_EM_T delta 0 then true else false) then
    let x := vscale (delta / sdn) sd in
    DLok true x (mkDl (base_leave b) x sd (d_gn s) sdn (d_gnn s) (delta * (2 * sdn - delta) / (2 * scl)) scl delta TSD sys)
  else if negb gnComputed && negb (fst (csolve c)) then
    DLok false dx (mkDl (base_leave b) (d_dx s) sd (Some (snd (csolve c))) sdn (d_gnn s) (d_L0 s) scl delta (d_type s) sys)
  else
    match (if gnComputed then d_gn s else Some (snd (csolve c))) with
    | None => DLUB
    | Some gn =>
      let gnn := if gnComputed then d_gnn s else norm n gn in
      let delta := if Req_EM_T delta 0 then norm n (vadd sd (vscale (1 / 2) (vsub gn sd))) else delta in
      if rle gnn delta then
        DLok true gn (mkDl (base_leave b) gn sd (Some gn) sdn gnn (cJ c) scl delta TGN sys)
      else
        let d := vsub gn sd in
        match dl_beta (vdot n sd d) (vdot n d d) (delta * delta - sdn * sdn) with
        | None => DLNaN
        | Some be =>
          let x := vadd sd (vscale be d) in
          (* 1/2 is an integer division in the code: the first term is zero *)
          DLok true x (mkDl (base_leave b) x sd (Some gn) sdn gnn (be * (2 - be) * cJ c) scl delta TDL sys)
        end
    end.
