(** * C35-C37: the samplers *)
From Coq Require Import ZArith Reals List Bool Lra Lia.
From Flocq Require Import BinarySingleNaN.
From Verif Require Import Lib_Ring Lib_Real Lib_Float Lib_Num Sampler_Model Sampler_Spec Sampler_Proofs Sampler_Toy.
Import ListNotations.
Open Scope R_scope.

(** ** C35: Metropolis-Hastings *)

(** C35, detailed balance (exact arithmetic). Let the proposal have a symmetric density q on increments, where -dx leads back from the proposal.
    For every state x (reached with any valid cached value), every increment dx with y = x + dx, and every uniform numbers: the probability p with which
    the sampler moves from x to y and the probability p' with which it moves back satisfy exp(-U(x)) q(dx) p = exp(-U(y)) q(-dx) p'; the move is made
    exactly when the uniform number is below p, which is in (0, 1]. *)
Theorem C35_balance : forall (W V : Type) (density : W -> option R) (upd : W -> V -> W) (opp : V -> V),
  (forall w v, upd (upd w v) (opp v) = w) -> forall (q : V -> R), (forall v, q (opp v) = q v) ->
  forall (force last : bool) (d : mh R W) dx u p a d1 (force' last' : bool) (e : mh R W) u' p' a' e1 ux uy,
  mh_valid density force last d -> mh_valid density force' last' e -> m_world e = upd (m_world d) dx ->
  mh_step density upd exp force last d (dx, u) = (Some p, a, d1) ->
  mh_step density upd exp force' last' e (opp dx, u') = (Some p', a', e1) ->
  density (m_world d) = Some ux -> density (m_world e) = Some uy ->
  (upd (m_world e) (opp dx) = m_world d /\ target ux * q dx * p = target uy * q (opp dx) * p' /\ 0 < p <= 1) /\
  (a = true <-> u < p) /\ m_world d1 = (if a then m_world e else m_world d).
Proof.
  exact (fun W V density upd opp back q qs f l d dx u p a d1 f' l' e u' p' a' e1 ux uy Vd Ve We S S' Dx Dy =>
    conj (mh_balance density upd opp back q qs f l d dx u p a d1 f' l' e u' p' a' e1 ux uy Vd Ve We S S' Dx Dy)
         (mh_moves density upd f l d dx u p a d1 (m_world e) Vd We S)).
Qed.
Print Assumptions C35_balance.
Example C35_balance_case : (forall w v, w + v + - v = w) /\ mh_valid lineU true false lstart /\
  (exists p, lstep true false lstart (1, 1) = (Some p, false, mkMh 0 0 0)) /\
  (exists p, lstep true false (mkMh 1 1 0) (-1, 0) = (Some p, true, mkMh (1 + -1) 1 (1 + -1))).
Proof. exact (conj line_back (conj (fun X => False_ind _ (Bool.diff_true_false X)) (conj (ex_intro _ _ line_rejects) line_accepts))). Qed.

(** C35, one step in any arithmetic (also double precision): the state and the cached value after a rejection are those before, after an acceptance those
    of the proposal. *)
Theorem C35_step : forall (N : Type) (A : Num N) (W V : Type) (density : W -> option N) (upd : W -> V -> W) (expo : N -> N)
    (force last : bool) (d : mh N W) dx u p a d', mh_valid density force last d -> mh_step density upd expo force last d (dx, u) = (Some p, a, d') ->
  (a = true -> m_world d' = upd (m_world d) dx) /\ (a = false -> m_world d' = m_world d) /\ density (m_world d') = Some (m_cached d') /\
  exists old new, density (m_world d) = Some old /\ density (upd (m_world d) dx) = Some new /\ p = expo (min0 (nadd (nopp new) old)) /\ a = nlt u p.
Proof. exact (fun N A W V density upd expo f l d dx u p a d' => mh_one density upd expo f l d dx u p a d'). Qed.
Print Assumptions C35_step.
Example C35_step_case : mh_valid lineU true false lstart /\ exists p, lstep true false lstart (1, 1) = (Some p, false, mkMh 0 0 0).
Proof. exact (conj (fun X => False_ind _ (Bool.diff_true_false X)) (ex_intro _ _ line_rejects)). Qed.

(** C35, all histories: after any calls of initialize, forceRecomputation and run on a new sampler, none of which threw, the cached value is that of the
    current state whenever the next step would use it. *)
Theorem C35_cache_partial : forall (N : Type) (A : Num N) (W V : Type) (density : W -> option N) (upd : W -> V -> W) (expo : N -> N) (nan : N)
    (calls : list (call (V * N))) (d : mh N W) b' d',
  do_calls (mh_step density upd expo) (mh_reset nan) calls (false, base_new, d) = (false, b', d') ->
  necessary b' = false -> density (m_world d') = Some (m_cached d').
Proof.
  exact (fun N A W V density upd expo nan cs d b' d' H => mh_calls_valid density upd expo nan cs base_new d b' d' (mh_new_valid density d) H).
Qed.
Print Assumptions C35_cache_partial.
Example C35_cache_case : exists b d, do_calls lstep (mh_reset 7) [Init; Run [(-1, 0); (1, 1)]; Force; Run [(-1, 0)]] (false, base_new, lstart) = (false, b, d) /\
  b_iter b = 3%nat /\ b_total b = 2%nat /\ b_run b = 1%nat /\ m_world d = -1 + -1 /\ necessary b = false.
Proof. exact line_history. Qed.

(** C35, what is missing above: if evaluating the proposal throws, the sampler stays at the proposal, the value cached for the next step is that of
    the state before. *)
Theorem C35_exception_refuted : exists calls b d,
  do_calls pstep (mh_reset 7) calls (false, base_new, mkMh 0%Z 0%Z 0) = (true, b, d) /\
  necessary b = false /\ m_world d = 1%Z /\ m_cached d = 0 /\ partialU (m_world d) = None.
Proof. exact exception_refutes. Qed.
Print Assumptions C35_exception_refuted.

(** C35 in double precision: a proposal whose density is not a number is accepted, whatever the uniform number below one. *)
Theorem C35_nan_refuted : forall (expd : b64 -> b64) (u : b64), expd f0 = fz 1 -> flt u (fz 1) = true ->
  mh_step nanU Z.add expd true false (mkMh 0%Z 0%Z f0) (1%Z, u) = (Some (fz 1), true, mkMh 1%Z 0%Z NaN).
Proof. exact nan_refutes. Qed.
Print Assumptions C35_nan_refuted.

(** ** C36: hybrid Monte Carlo, exact arithmetic *)

(** C36, reversibility: for every gradient (also one that fails somewhere), every step length, every half step length (the code may use the half of an
    earlier step length) and every number of steps. *)
Theorem C36_reversible : forall (W : Type) (gradient : W -> option (vec R)) (upd : W -> vec R -> W),
  (forall w v, upd (upd w v) (vopp v) = w) ->
  forall (half eps : R) (steps : nat) (w : W) g p w2 p2 g2, gradient w = Some g ->
  trajectory gradient upd (fun _ => true) half eps steps w g p = Some (w2, p2, g2) ->
  trajectory gradient upd (fun _ => true) half eps steps w2 g2 (vopp p2) = Some (w, vopp p, g).
Proof. exact (fun W gradient upd back => reversible gradient upd back). Qed.
Print Assumptions C36_reversible.
Example C36_reversible_case : (forall w v, hupd (hupd w v) (vopp v) = w) /\
  exists w2 p2, trajectory hG hupd (fun _ => true) (1 / 2) 1 4 0 (fun _ => 1) zero_p = Some (w2, p2, fun _ => 1) /\ w2 = - 9 / 2 /\ p2 0%nat = - 3.
Proof. exact (conj hupd_back h_traj4). Qed.

(** C36, one call of step with any number of attempts: a rejected proposal, and an exception, leave the state; after a completed step the cached density
    and gradient are those of the state; the reported probability is in [0, 1]. *)
Theorem C36_rejection : forall (W : Type) (n : nat) (density : W -> option R) (gradient : W -> option (vec R)) (upd : W -> vec R -> W)
    (finite : vec R -> bool) (finiteE : R -> bool) (o : hopts) (force last : bool) (d : hmc W) draws r a d',
  hmc_valid density gradient force last d -> hmc_step n density gradient upd finite finiteE o force last d draws = (r, a, d') ->
  (a = false -> h_world d' = h_world d) /\
  (r <> None -> density (h_world d') = Some (h_u d') /\ gradient (h_world d') = Some (h_grad d')) /\
  (r = None -> hmc_valid density gradient force a d') /\
  (r = None -> h_world d' = h_world d) /\
  (forall p, r = Some p -> 0 <= p <= 1).
Proof. exact (fun W n density gradient upd finite finiteE o f l d draws r a d' => attempts_spec n density gradient upd finite finiteE o _ f draws l d r a d'). Qed.
Print Assumptions C36_rejection.
Example C36_rejection_case : exists a d,
  hmc_step 1 bumpU hG hupd (fun _ => true) (fun _ => true) (hopt 2) true false (mkHmc 0 7 zero_p 1) [(zero_p, 1)] = (Some a, false, d) /\ h_world d = 0 /\ h_u d = 0.
Proof. exact bump_rejects. Qed.

(** C36, all histories, also those with exceptions: cached density and gradient are those of the state whenever they will be used. *)
Theorem C36_cache : forall (W : Type) (n : nat) (density : W -> option R) (gradient : W -> option (vec R)) (upd : W -> vec R -> W)
    (finite : vec R -> bool) (finiteE : R -> bool) (o : hopts) calls (d : hmc W) t b' d',
  do_calls (hmc_step n density gradient upd finite finiteE o) (fun d => d) calls (false, base_new, d) = (t, b', d') ->
  necessary b' = false -> density (h_world d') = Some (h_u d') /\ gradient (h_world d') = Some (h_grad d').
Proof.
  exact (fun W n density gradient upd finite finiteE o cs d t b' d' H =>
    hmc_calls_valid n density gradient upd finite finiteE o cs false base_new d t b' d' (hmc_new_valid density gradient d) H).
Qed.
Print Assumptions C36_cache.
Example C36_cache_case : exists b d, do_calls (hmc_step 1 hU hG hupd (fun _ => true) (fun _ => true) (hopt 2)) (fun d => d) [Run [[(zero_p, 1 / 2)]]]
    (false, base_new, mkHmc 0 7 zero_p 1) = (false, b, d) /\ necessary b = false /\ h_world d = - (1 / 2).
Proof. exact h_history. Qed.

(** C36, detailed balance: with reversibility, the accepted moves between (w, p) and (w2, -p2) balance for the density exp(-U - p.p/2). *)
Theorem C36_balance : forall (W : Type) (n : nat) (density : W -> option R) (gradient : W -> option (vec R)) (upd : W -> vec R -> W),
  (forall w v, upd (upd w v) (vopp v) = w) -> forall (o : hopts) f l d p uu rest a b d1 f' l' e uu' rest' a' b' e1 g g2 w2 p2 u u2,
  hmc_valid density gradient f l d -> hmc_valid density gradient f' l' e -> h_eps e = h_eps d ->
  gradient (h_world d) = Some g ->
  trajectory gradient upd (fun _ => true) (h_eps d / 2) (h_eps d) (h_steps o) (h_world d) g p = Some (w2, p2, g2) ->
  h_world e = w2 -> density (h_world d) = Some u -> density w2 = Some u2 ->
  hmc_step n density gradient upd (fun _ => true) (fun _ => true) o f l d ((p, uu) :: rest) = (Some a, b, d1) ->
  hmc_step n density gradient upd (fun _ => true) (fun _ => true) o f' l' e ((vopp p2, uu') :: rest') = (Some a', b', e1) ->
  joint n u p * a = joint n u2 (vopp p2) * a' /\ (b = true <-> uu < a) /\ (b' = true -> h_world e1 = h_world d).
Proof. exact (fun W n density gradient upd back o => hmc_balance n density gradient upd back o). Qed.
Print Assumptions C36_balance.
Example C36_balance_case : exists w2 p2, trajectory hG hupd (fun _ => true) (1 / 2) 1 2 0 (fun _ => 1) zero_p = Some (w2, p2, fun _ => 1) /\
  w2 = 0 + 1 * (zero_p 0%nat - 1 / 2) /\ p2 0%nat = zero_p 0%nat - 1.
Proof. exact (h_traj 1 0 zero_p). Qed.

(** C36: the energy used for accepting is that of momenta of standard deviation one. With any other standard deviation s (the option
    standardDeviationMomentum) the moves do not balance for the density of states and sampled momenta. *)
Theorem C36_sigma_refuted : forall s, 0 < s -> s <> 1 -> exists (w w2 : R) (p p2 : vec R) (d d1 e e1 : hmc R) (a a' : R),
  h_world d = w /\ h_world e = w2 /\ h_eps d = 1 /\ h_eps e = 1 /\
  trajectory hG hupd (fun _ => true) (1 / 2) 1 2 w (fun _ => 1) p = Some (w2, p2, fun _ => 1) /\
  hmc_step 1 hU hG hupd (fun _ => true) (fun _ => true) (hopt 2) true false d [(p, 1 / 2)] = (Some a, true, d1) /\ h_world d1 = w2 /\
  hmc_step 1 hU hG hupd (fun _ => true) (fun _ => true) (hopt 2) true false e [(vopp p2, 1 / 2)] = (Some a', true, e1) /\ h_world e1 = w /\
  joint_s 1 s w p * a <> joint_s 1 s w2 (vopp p2) * a'.
Proof. exact sigma_refutes. Qed.
Print Assumptions C36_sigma_refuted.

(** ** C37: statistics *)

(** C37, counting: for every sampler (every virtual step) and every history. A run adds to the iterations the number of completed steps (all steps when
    no exception is thrown), to the total the number of accepted ones, and counts the accepted ones of this run; initialising sets all to zero. *)
Theorem C37_counts : forall (N : Type) (A : Num N) (D Draw : Type) (step : bool -> bool -> D -> Draw -> option N * bool * D)
    (reset : D -> D) (calls : list (call Draw)) s0 threw b d ds t b' d',
  do_calls step reset calls s0 = (threw, b, d) -> sampler_run step ds b d = (t, b', d') ->
  let outs := outcomes step ds (b_force b) (b_last b) d in
  (b_iter b' = b_iter b + length outs /\ b_total b' = b_total b + count_occ Bool.bool_dec outs true /\ b_run b' = count_occ Bool.bool_dec outs true /\
   (if t then length outs < length ds else length outs = length ds))%nat /\
  (forall b0, b_iter (base_reset (N := N) b0) = 0%nat /\ b_total (base_reset (N := N) b0) = 0%nat /\ b_run (base_reset (N := N) b0) = 0%nat).
Proof. exact (fun N A D Draw step reset cs s0 threw b d ds t b' d' _ H => conj (run_counts_user step ds b d t b' d' H) (fun b0 => conj eq_refl (conj eq_refl eq_refl))). Qed.
Print Assumptions C37_counts.
Example C37_counts_case : exists b d, do_calls lstep (mh_reset 7) [Init; Run [(-1, 0); (1, 1)]; Force; Run [(-1, 0)]] (false, base_new, lstart) = (false, b, d) /\
  b_iter b = 3%nat /\ b_total b = 2%nat /\ b_run b = 1%nat /\ m_world d = -1 + -1 /\ necessary b = false.
Proof. exact line_history. Qed.

(** C37, the rate in double precision: after every history of a new sampler with fewer than 2^64 iterations. *)
Theorem C37_rate : forall (D Draw : Type) (step : bool -> bool -> D -> Draw -> option b64 * bool * D) (reset : D -> D) calls d threw b' d',
  do_calls step reset calls (false, base_new, d) = (threw, b', d') -> (Z.of_nat (b_iter b') < 2 ^ 64)%Z ->
  fle f0 (acceptanceRate b') = true /\ fle (acceptanceRate b') (fz 1) = true.
Proof. exact (fun D Draw step reset cs d threw b' d' H L => rate_bounds b' (calls_le step reset cs false base_new d threw b' d' (le_n 0) H) L). Qed.
Print Assumptions C37_rate.
Example C37_rate_case : exists b d, do_calls tstep (fun d => d) [Init; Run [true; false; true]] (false, base_new (N := b64), tt) = (false, b, d) /\
  b_iter b = 3%nat /\ b_total b = 2%nat.
Proof. exact tstep_counts. Qed.

(** C37, the running mean of the acceptance probability stays in [0, 1] (exact arithmetic, smoothing factor in (0, 1]), for every sampler whose step
    reports probabilities. *)
Theorem C37_mean : forall (D Draw : Type) (step : bool -> bool -> D -> Draw -> option R * bool * D),
  (forall f l d x p a d1, step f l d x = (Some p, a, d1) -> 0 <= p <= 1) ->
  forall ds b d t b' d', 0 < b_alpha b <= 1 -> 0 <= b_mean b <= 1 -> sampler_run step ds b d = (t, b', d') -> 0 <= b_mean b' <= 1.
Proof. exact (fun D Draw step H ds b d t b' d' Ha Hm Hr => run_mean_user D Draw step H ds b d t b' d' Ha Hm Hr). Qed.
Print Assumptions C37_mean.
Example C37_mean_case : (forall f l d x p a d1, lstep f l d x = (Some p, a, d1) -> 0 <= p <= 1) /\
  0 < b_alpha (base_new (N := R)) <= 1 /\ 0 <= b_mean (base_new (N := R)) <= 1.
Proof. exact line_mean. Qed.
