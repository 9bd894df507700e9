(** * Which options make the step sizes of Rprop behave; the option check of the code is weaker *)
From Coq Require Import ZArith List Bool.
From Flocq Require Import BinarySingleNaN.
From Verif Require Import Lib_Float Rprop_Model.

Definition sane (o : roptions) : Prop :=
  check_rprop o = true /\ fle (minDelta o) (initialDelta o) = true /\ fle (initialDelta o) (maxDelta o) = true /\
  fle (etaMinus o) (fz 1) = true /\ fle (fz 1) (etaPlus o) = true /\ is_finite (maxDelta o) = true.

Definition within (o : roptions) (c : rcoord) : Prop := fle (minDelta o) (r_delta c) = true /\ fle (r_delta c) (maxDelta o) = true.
