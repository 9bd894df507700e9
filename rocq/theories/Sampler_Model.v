(** * The samplers: SamplerBase.cpp, SamplerMetropolisHastings.cpp, SamplerHybridMcmc.cpp.
    Random numbers are arguments. The negative log density and its gradient are arbitrary partial functions of the state of the design variables
    ([None]: the evaluation throws). Not modelled: logging, timing, the checks that are compiled only into debug builds. *)
From Coq Require Import ZArith Reals List Bool.
From Verif Require Import Lib_Ring Lib_Real Lib_Num.
Import ListNotations.

(** ** SamplerBase *)
Section Base.
  Context {N : Type} {A : Num N}.
  (* SamplerBase.hpp L46-50, L119-120 *)
  Record base := mkBase { b_last : bool; b_force : bool; b_iter : nat; b_total : nat; b_run : nat; b_mean : N; b_alpha : N }.

  (* SamplerBase.cpp L22-27, L129-134 *)
  Definition base_reset (b : base) : base := mkBase false true 0 0 0 (nlit 0 1) (b_alpha b).
  (* a new sampler, SamplerBase.hpp L46-50, L119-120 *)
  Definition base_new : base := mkBase false true 0 0 0 (nlit 0 1) (nlit 1 10).

  (* SamplerBase.cpp L44-51 *)
  Definition new_mean (iter : nat) (alpha mean prob : N) : N :=
    if (iter <? 2)%nat then prob else nadd mean (nmul (nopp alpha) (nsub mean prob)).

  (* SamplerBase.cpp L30-32 *)
  Definition acceptanceRate (b : base) : N :=
    if (0 <? b_iter b)%nat then ndiv (nlit (Z.of_nat (b_total b)) 1) (nlit (Z.of_nat (b_iter b)) 1) else nlit 0 1.

  (* SamplerBase.hpp L84 *)
  Definition necessary (b : base) : bool := b_force b || negb (b_last b).

  (* One call of the virtual step: arguments forceRecomputation, isLastSampleAccepted, the state of the derived class and the random numbers;
     returns the acceptance probability (None: an exception is thrown), the new isLastSampleAccepted (written through the reference) and state *)
  Context {D Draw : Type}.
  Variable step : bool -> bool -> D -> Draw -> option N * bool * D.

  (* SamplerBase.cpp L65-77: the loop; the flag tells whether an exception ended it *)
  Fixpoint run_loop (ds : list Draw) (b : base) (d : D) : bool * base * D :=
    match ds with
    | [] => (false, b, d)
    | x :: ds' =>
      let '(r, last, d1) := step (b_force b) (b_last b) d x in
      match r with
      | None => (true, mkBase last (b_force b) (b_iter b) (b_total b) (b_run b) (b_mean b) (b_alpha b), d1)
      | Some p =>
        let it := S (b_iter b) in
        run_loop ds' (mkBase last false it (if last then S (b_total b) else b_total b) (if last then S (b_run b) else b_run b)
                             (new_mean it (b_alpha b) (b_mean b) p) (b_alpha b)) d1
      end
    end.

  (* SamplerBase.cpp L54-84 with an initialised problem manager; the number of steps is the number of draws *)
  Definition sampler_run (ds : list Draw) (b : base) (d : D) : bool * base * D :=
    run_loop ds (mkBase (b_last b) (b_force b) (b_iter b) (b_total b) 0 (b_mean b) (b_alpha b)) d.

  (* Histories: the calls a user can make. [Init] is SamplerBase.cpp L123-134 (initialize and reset), [Force] L107-109, [Run] L54 *)
  Inductive call := Init | Force | Run (ds : list Draw).
  Variable derived_reset : D -> D.
  (* same code: SamplerBase.cpp L123-134, L107-109, L54 *)
  Definition do_call (c : call) (s : bool * base * D) : bool * base * D :=
    let '(threw, b, d) := s in
    match c with
    | Init => (threw, base_reset b, derived_reset d)
    | Force => (threw, mkBase (b_last b) true (b_iter b) (b_total b) (b_run b) (b_mean b) (b_alpha b), d)
    | Run ds => let '(t, b', d') := sampler_run ds b d in (threw || t, b', d')
    end.
  (* same code: SamplerBase.cpp L123-134, L107-109, L54 *)
  Definition do_calls (cs : list call) (s : bool * base * D) : bool * base * D := fold_left (fun s c => do_call c s) cs s.
End Base.
Arguments base N : clear implicits. Arguments call Draw : clear implicits.

(** ** SamplerMetropolisHastings *)
Section MH.
  Context {N : Type} {A : Num N} {W V : Type}.
  Variables (density : W -> option N) (upd : W -> V -> W) (exp : N -> N).

  (* the values of the design variables, the values they keep for reverting, and _negLogDensity *)
  (* SamplerMetropolisHastings.hpp L59 *)
  Record mh := mkMh { m_world : W; m_saved : W; m_cached : N }.
  (* ProblemManager::applyStateUpdate and revertLastStateUpdate: every design variable keeps its old value / takes it back (see C15) *)
  (* util/ProblemManager.cpp, applyStateUpdate *)
  Definition mh_apply (d : mh) (v : V) : mh := mkMh (upd (m_world d) v) (m_world d) (m_cached d).
  (* util/ProblemManager.cpp, revertLastStateUpdate *)
  Definition mh_revert (d : mh) : mh := mkMh (m_saved d) (m_saved d) (m_cached d).

  (* std::min(0.0, x) *)
  Definition min0 (x : N) : N := if nlt x (nlit 0 1) then x else nlit 0 1.

  (* SamplerMetropolisHastings.cpp L53-82; a draw is the proposed increment (L63-64) and the uniform number (L72) *)
  Definition mh_step (force last : bool) (d : mh) (draw : V * N) : option N * bool * mh :=
    match (if force || negb last then density (m_world d) else Some (m_cached d)) with
    | None => (None, last, d)
    | Some old =>
      let d1 := mh_apply (mkMh (m_world d) (m_saved d) old) (fst draw) in
      match density (m_world d1) with
      | None => (None, last, d1)
      | Some new =>
        let p := exp (min0 (nadd (nopp new) old)) in
        if nlt (snd draw) p then (Some p, true, mkMh (m_world d1) (m_saved d1) new) else (Some p, false, mh_revert d1)
      end
    end.

  (* SamplerMetropolisHastings.cpp L84-86; [nan] is signaling_NaN *)
  Definition mh_reset (nan : N) (d : mh) : mh := mkMh (m_world d) (m_saved d) nan.
End MH.
Arguments mh N W : clear implicits.

(** ** SamplerHybridMcmc, exact arithmetic *)
Section HMC.
  Open Scope R_scope.
  Context {W : Type}.
  Variable n : nat.
  Variables (density : W -> option R) (gradient : W -> option (vec R)) (upd : W -> vec R -> W).
  (* allFinite of an increment and isfinite of the total energy *)
  Variables (finite : vec R -> bool) (finiteE : R -> bool).

  (* SamplerHybridMcmc.hpp: the options used by step *)
  Record hopts := mkHopts { h_min : R; h_dec : R; h_steps : nat }.

  (* the design variables, _u, _gradient, _stepLength *)
  (* SamplerHybridMcmc.hpp L86-88 *)
  Record hmc := mkHmc { h_world : W; h_u : R; h_grad : vec R; h_eps : R }.

  (* L161, L226 *)
  Definition kinetic (p : vec R) : R := / 2 * vdot n p p.

  (* L189-212: the full steps of the loop, [m] of them; None when the trajectory diverged *)
  Fixpoint full_steps (eps : R) (m : nat) (w : W) (p : vec R) : option (W * vec R) :=
    match m with
    | O => Some (w, p)
    | S m' =>
      match gradient w with
      | None => None
      | Some g =>
        let p1 := vsub p (vscale eps g) in
        let dx := vscale eps p1 in
        if finite dx then full_steps eps m' (upd w dx) p1 else None
      end
    end.

  (* L189: the loop counter runs from 1 to nLeapFrogSteps - 2; nLeapFrogSteps = 0 wraps around and is not modelled (treated as 1) *)
  Definition middle (steps : nat) : nat := (steps - 2)%nat.

  (* L180-221: the trajectory from state w with gradient g and momentum p; half is deltaHalf *)
  Definition trajectory (half eps : R) (steps : nat) (w : W) (g : vec R) (p : vec R) : option (W * vec R * vec R) :=
    let p1 := vsub p (vscale half g) in
    match full_steps eps (middle steps) (upd w (vscale eps p1)) p1 with
    | None => None
    | Some (w2, p2) =>
      match gradient w2 with
      | None => None
      | Some g2 => Some (w2, vsub p2 (vscale half g2), g2)
      end
    end.

  (* L214-240: the trajectory and the energy at its end; None: diverged *)
  Definition simulate (half eps : R) (steps : nat) (w : W) (g p : vec R) : option (W * vec R * R * R) :=
    match trajectory half eps steps w g p with
    | None => None
    | Some (w2, p2, g2) =>
      match density w2 with
      | None => None
      | Some u2 => let e := u2 + kinetic p2 in if finiteE e then Some (w2, g2, u2, e) else None
      end
    end.

  (* L145-266: the loop; a draw is a momentum and a uniform number per attempt; the attempts end with the list of draws (then [None], as for an
     exception). The result: acceptance probability, accepted, state. *)
  Fixpoint attempts (o : hopts) (half : R) (force last : bool) (d : hmc) (draws : list (vec R * R)) : option R * bool * hmc :=
    match draws with
    | [] => (None, last, d)
    | (p, uu) :: rest =>
      let need := force || negb last in
      match (if need then density (h_world d) else Some (h_u d)) with
      | None => (None, last, d)
      | Some u0 =>
        match (if need then gradient (h_world d) else Some (h_grad d)) with
        | None => (None, last, d)
        | Some g0 =>
          let e0 := u0 + kinetic p in
          match simulate half (h_eps d) (h_steps o) (h_world d) g0 p with
          | Some (w2, g2, u2, e2) =>
            let a := Rmin 1 (exp (e0 - e2)) in
            if Rltb uu a then (Some a, true, mkHmc w2 u2 g2 (h_eps d))
            else (Some a, false, mkHmc (h_world d) u0 g0 (h_eps d))
          | None =>
            (* diverged: acceptance probability 0, the uniform number is not below it; the step length is reduced *)
            let eps := Rmax (h_eps d * h_dec o) (h_min o) in
            let d1 := mkHmc (h_world d) u0 g0 eps in
            if Rltb (eps - h_min o) (1 / 1000000000000) then (Some 0, false, d1)
            else attempts o half force false d1 rest
          end
        end
      end
    end.

  (* L114-145 outside the burn-in phase (in the burn-in phase L122-128 choose another step length first) *)
  Definition hmc_step (o : hopts) (force last : bool) (d : hmc) (draws : list (vec R * R)) : option R * bool * hmc :=
    attempts o (h_eps d / 2) force last d draws.
End HMC.
Arguments hmc W : clear implicits.
