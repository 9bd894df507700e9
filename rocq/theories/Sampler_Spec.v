(** * Specifications for the samplers *)
From Coq Require Import ZArith Reals List Bool.
From Verif Require Import Lib_Ring Lib_Real Lib_Num Sampler_Model.
Import ListNotations.

(* the accept/reject decisions of the steps that were completed *)
Fixpoint outcomes {N D Draw : Type} (step : bool -> bool -> D -> Draw -> option N * bool * D) (ds : list Draw) (force last : bool) (d : D) : list bool :=
  match ds with
  | [] => []
  | x :: ds' => match step force last d x with
                | (None, _, _) => []
                | (Some _, a, d1) => a :: outcomes step ds' false a d1
                end
  end.

(* the target density exp(-U) of Metropolis-Hastings *)
Definition target (u : R) : R := exp (- u).

(* the values cached by a sampler are those of the design variables whenever they will be used *)
Definition mh_valid {N W : Type} (density : W -> option N) (force last : bool) (d : mh N W) : Prop :=
  (force || negb last) = false -> density (m_world d) = Some (m_cached d).
Definition hmc_valid {W : Type} (density : W -> option R) (gradient : W -> option (vec R)) (force last : bool) (d : hmc W) : Prop :=
  (force || negb last) = false -> density (h_world d) = Some (h_u d) /\ gradient (h_world d) = Some (h_grad d).

(* the Hamiltonian density: the state and the momentum have density exp(-U - p.p/2) *)
Definition joint (n : nat) (u : R) (p : vec R) : R := exp (- (u + / 2 * vdot n p p)).
(* with momenta of standard deviation s: exp(-U - p.p/(2 s^2)) *)
Definition joint_s (n : nat) (s u : R) (p : vec R) : R := exp (- (u + / (2 * (s * s)) * vdot n p p)).
