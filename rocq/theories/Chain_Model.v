(** * Kinematic chains

    aslam_backend_expressions/include/aslam/backend/KinematicChain.hpp ("KC") and src/KinematicChain.cpp ("KS").
    A frame and its ancestors are a list, the frame first. The members R_G_L, pG, ... that keep an expression once it is built (KC L105-108) are the subject of
    Frames_Model.v; here the getters are the expressions they build. Node numbers are 0: they matter only for Stale_Model. *)
From Coq Require Import Arith List ZArith Bool Reals.
From Verif Require Import Lib_Ring Lib_Real Lib_Res MatrixStack_Model DesignVar_Base Jacobian_Model Scalar_Model Geo_Model Empty_Model.
Import ListNotations.

(* CoordinateFrame without its parent pointer: KC L106-107 *)
Record frame := { fR : handle rx; fp : handle vx; fomega : handle vx; fv : handle vx; falpha : handle vx; fa : handle vx }.

(* operator* of a rotation and a vector, operator* of rotations *)
Local Notation "r ** p" := (r_apply 0 r p) (at level 40, left associativity).
Local Notation "a ++ b" := (e_add a b).
Local Notation "a >< b" := (e_cross a b) (at level 45).

(* getR_G_L KC L50-55; a frame without parent has its own values as globals, KS L6-13 *)
Fixpoint getR (c : list frame) : handle rx :=
  match c with [] => HNull | [f] => fR f | f :: ps => r_mul 0 (getR ps) (fR f) end.
(* getOmegaG KC L57-62 *)
Fixpoint getOmega (c : list frame) : handle vx :=
  match c with [] => HNull | [f] => fomega f | f :: ps => getOmega ps ++ getR ps ** fomega f end.
(* getAlphaG KC L64-69 *)
Fixpoint getAlpha (c : list frame) : handle vx :=
  match c with [] => HNull | [f] => falpha f | f :: ps => (getAlpha ps ++ (getOmega ps >< (getR ps ** fomega f))) ++ getR ps ** falpha f end.
(* getPG KC L72-77 *)
Fixpoint getP (c : list frame) : handle vx :=
  match c with [] => HNull | [f] => fp f | f :: ps => getP ps ++ getR ps ** fp f end.
(* getVG KS L15-20 *)
Fixpoint getV (c : list frame) : handle vx :=
  match c with [] => HNull | [f] => fv f | f :: ps => (getV ps ++ getR ps ** fv f) ++ (getOmega ps >< (getR ps ** fp f)) end.
(* getAG KS L22-27 *)
Fixpoint getA (c : list frame) : handle vx :=
  match c with [] => HNull | [f] => fa f
  | f :: ps => (((getA ps ++ getR ps ** fa f) ++ (getOmega ps >< (getR ps ** fv f))) ++ (getAlpha ps >< (getR ps ** fp f))) ++ (getOmega ps >< (getOmega ps >< (getR ps ** fp f))) end.
