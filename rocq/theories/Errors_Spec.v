(** * Specification vocabulary for error terms and gradients (mathematics only) *)
From Coq Require Import Arith List ZArith.
From Verif Require Import Lib_Ring MatrixStack_Model MatrixStack_Spec DesignVar_Base Jacobian_Model Jacobian_Spec.
Import ListNotations.

Section Spec.
Context {K : Type} {R : CRing K}.

(** e^T W e *)
Definition quad (n : nat) (W : mat K) (e : vec K) : K :=
  ksum n (fun i => ksum n (fun j => kmul (kmul (e i) (W i j)) (e j))).

(** the derivative of row i along the direction [dir] (one entry per column of the state vector) that
    a list of Jacobian contributions stands for: active design variables only, each with its own
    columns *)
Definition Jdir (cs : list (@contribution K)) (dir : vec K) (i : nat) : K :=
  lsum cs (fun c => if dv_active (fst c)
                    then ksum (dv_dim (fst c)) (fun k => kmul (snd c i k) (dir (Z.to_nat (dv_col (fst c)) + k)))
                    else k0).

(** the events of evaluating Jacobians below one more chain-rule factor *)
Definition below (f : @factor K) (evs : list (@event K)) : list (@event K) := EApply f :: evs ++ [EEnd].

(** row i of the matrix held by a sparse container, times the direction *)
Definition spdir (m : @jmap K) (dir : vec K) (i : nat) : K :=
  lsum m (fun e => ksum (d_cols (snd e)) (fun k => kmul (d_at (snd e) i k) (dir (Z.to_nat (dv_col (fst e)) + k)))).

(** the columns of the active design variables lie in the state vector (problem initialisation
    establishes this, C13) *)
Definition in_cols (cols : nat) (D : list (dvar K)) : Prop :=
  forall d, In d D -> dv_active d = true -> (0 <= dv_col d)%Z /\ (dv_col d + Z.of_nat (dv_dim d) <= Z.of_nat cols)%Z.
End Spec.
