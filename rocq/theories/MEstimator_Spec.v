(** * Robust losses (mathematics only) *)
From Coq Require Import Reals List.
From Verif Require Import MEstimator_Model.
Import ListNotations.
Open Scope R_scope.

(** the robust losses from the literature, as functions of the squared error s *)
Definition loss (m : mestimator) (s : R) : R :=
  match m with
  | NoM => s
  | GemanMcClure sigma2 => s / (sigma2 + s)
  | Cauchy sigma2 => sigma2 * ln (1 + s / sigma2)
  | Huber k => if Rle_dec s (k * k) then s else 2 * k * sqrt s - k * k
  | BlakeZisserman epsilon => - ln (exp (- s) + epsilon)
  | FixedWeight w => w * s
  end.
(** positive tuning constants *)
Definition tuned (m : mestimator) : Prop :=
  match m with
  | NoM => True
  | GemanMcClure a | Cauchy a | Huber a | BlakeZisserman a | FixedWeight a => 0 < a
  end.

(** sum of a list *)
Definition rsum (l : list R) : R := fold_right Rplus 0 l.
