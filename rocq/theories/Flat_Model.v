(** * The flattened parameter vector and the state update of a list of design variables

    aslam_backend/include/aslam/backend/util/utils.hpp ("U"): getFlattenedDesignVariableParameters L82-117, applyStateUpdate L119-133;
    aslam_backend/src/util/ProblemManager.cpp ("PM"): getFlattenedDesignVariableParameters L222-249;
    aslam_backend/src/OptimizerBFGS.cpp L127, L138 (maxDeltaX).
    Vectors and matrices are lists of cells in column-major order; a cell without a value has not been initialised. *)
From Coq Require Import Arith Lia List Bool Reals.
From Verif Require Import Lib_Ring Lib_Real Lib_Res.
Import ListNotations.

Local Open Scope nat_scope.
Section Flat.
Context {K : Type} {RK : CRing K}.
(* what these functions see of a design variable: minimalDimensions(), scaling(), the matrix given by getParameters (DesignVariable.hpp L56, L86, L95) *)
Record fdv := mkF { f_min : nat; f_scale : K; f_rows : nat; f_cols : nat; f_par : list K }.
(* same code: DesignVariable.hpp L56, L86, L95 *)
Definition cell := option K.
(* same code: DesignVariable.hpp L56, L86, L95 *)
Definition f_size (d : fdv) : nat := f_rows d * f_cols d.

(** Eigen: VectorXd::resize(n): nothing when the size is already n, otherwise a new, uninitialised block *)
Definition resize (n : nat) (v : list cell) : list cell := if length v =? n then v else repeat None n.
(** Eigen: VectorXd::conservativeResize(n): the common part is kept *)
Definition conservativeResize (n : nat) (v : list cell) : list cell := firstn n v ++ repeat None (n - length v).
(** Eigen: MatrixXd::conservativeResize(r', c') (PlainObjectBase.h, conservative_resize_like_impl): with an unchanged number of rows the block is reallocated,
    otherwise the common top left corner is copied into a new matrix *)
Definition conservativeResizeM (r c r' c' : nat) (p : list cell) : list cell :=
  if r =? r' then conservativeResize (r' * c') p
  else flat_map (fun j => map (fun i => if (i <? Nat.min r r') && (j <? Nat.min c c') then nth (j * r + i) p None else None) (seq 0 r')) (seq 0 c').
(** v.segment(cnt, d) = x; outside the vector: undefined *)
(* same code: Eigen, PlainObjectBase.h *)
Definition set_segment (cnt : nat) (x v : list cell) : res (list cell) :=
  if cnt + length x <=? length v then Ok (firstn cnt v ++ x ++ skipn (cnt + length x) v) else UB.

(** U L86-89, PM L225-227 *)
Definition numParametersMin (dvs : list fdv) : nat := list_sum (map f_min dvs).
(** U L96-107, PM L232-245; [get] is what is written into the segment *)
Fixpoint flatten_loop (get : fdv -> list cell) (mn cnt : nat) (v : list cell) (dvs : list fdv) : res (list cell) :=
  match dvs with
  | [] => Ok v
  | d :: r =>
      let newSize := cnt + f_size d in
      let v1 := if mn <? newSize then conservativeResize newSize v else v in
      do v2 <- set_segment cnt (get d) v1;
      flatten_loop get mn newSize v2 r
  end.
(** U L105: Map<VectorXd>(p.data(), d, 1) *)
Definition get_utils (d : fdv) : list cell := map Some (f_par d).
(** PM L233-236: p.conservativeResize(d, 1) *)
Definition get_manager (d : fdv) : list cell := conservativeResizeM (f_rows d) (f_cols d) (f_size d) 1 (map Some (f_par d)).
(** U L84-108; [v] is the caller's vector *)
Definition flatten_utils (dvs : list fdv) (v : list cell) : res (list cell) :=
  flatten_loop get_utils (numParametersMin dvs) 0 (resize (numParametersMin dvs) v) dvs.
(** PM L222-249 *)
Definition flatten_manager (dvs : list fdv) : res (list cell) :=
  flatten_loop get_manager (numParametersMin dvs) 0 (repeat None (numParametersMin dvs)) dvs.

(** U L119-133: dxS = dx.segment(startIdx, dbd) * scaling; [upd] is the design variable's update. A segment outside dx is undefined. *)
Fixpoint apply_update (upd : fdv -> list K -> fdv) (startIdx : nat) (dvs : list fdv) (dx : list K) : res (list fdv) :=
  match dvs with
  | [] => Ok []
  | d :: r =>
      if startIdx + f_min d <=? length dx then
        let dxS := map (fun x => kmul x (f_scale d)) (firstn (f_min d) (skipn startIdx dx)) in
        do r' <- apply_update upd (startIdx + f_min d) r dx;
        Ok (upd d dxS :: r')
      else UB
  end.
(** the update of the vector-space design variables (Scalar.cpp L23-29, EuclideanPoint.cpp L23-31, implementation/DesignVariableVector.hpp L39-46): p += dx *)
Definition vec_update (d : fdv) (dx : list K) : fdv := mkF (f_min d) (f_scale d) (f_rows d) (f_cols d) (map (fun xy => kadd (fst xy) (snd xy)) (combine (f_par d) dx)).
End Flat.
Arguments fdv K : clear implicits.
Arguments cell K : clear implicits.

(** OptimizerBFGS.cpp L138: (new - dv).cwiseAbs().maxCoeff(). Reading a cell that was never written, different sizes and an empty vector are undefined. *)
Fixpoint max_change (a b : list (cell R)) : res R :=
  match a, b with
  | [Some x], [Some y] => Ok (Rabs (x - y))
  | Some x :: a', Some y :: b' => do m <- max_change a' b'; Ok (Rmax (Rabs (x - y)) m)
  | _, _ => UB
  end.
(* same code: OptimizerBFGS.cpp L138 *)
Definition maxDeltaX (before after : list (fdv R)) : res R := do a <- flatten_manager after; do b <- flatten_manager before; max_change a b.
