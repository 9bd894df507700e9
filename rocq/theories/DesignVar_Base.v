(** * The bookkeeping attributes of a design variable.

    Models the data members of aslam::backend::DesignVariable that the back end reads
    (aslam_backend/src/DesignVariable.cpp L7-17, include/aslam/backend/DesignVariable.hpp):
    identity (the pointer), activity flag, block index, column base (both -1 until
    initialised), minimal dimension and scaling. *)
From Coq Require Import ZArith.

Record dvar (K : Type) := mkDv {
  dv_id : nat;          (* the pointer *)
  dv_active : bool;     (* isActive() *)
  dv_block : Z;         (* blockIndex() *)
  dv_col : Z;           (* columnBase() *)
  dv_dim : nat;         (* minimalDimensions() *)
  dv_scaling : K        (* scaling() *)
}.
Arguments mkDv {K}. Arguments dv_id {K}. Arguments dv_active {K}. Arguments dv_block {K}.
Arguments dv_col {K}. Arguments dv_dim {K}. Arguments dv_scaling {K}.
