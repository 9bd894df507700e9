(** * C63: the flattened parameter vector and the state update *)
From Coq Require Import Arith List Bool Reals.
From Verif Require Import Lib_Ring Lib_Real Lib_Res Flat_Model Flat_Spec Flat_Proofs Flat_Toy.
Import ListNotations.
Local Open Scope nat_scope.

(** C63, utils::getFlattenedDesignVariableParameters: the vector is every parameter of every design variable, in order, column after column, and nothing else,
    whatever the vector held before. (No design variable class has fewer parameters than minimal dimensions.) *)
Theorem C63_utils_flatten : forall K (dvs : list (fdv K)) v, Forall well_shaped dvs -> Forall (fun d => f_min d <= length (f_par d)) dvs -> flatten_utils dvs v = Ok (map Some (all_parameters dvs)).
Proof. exact @utils_flat. Qed.
Print Assumptions C63_utils_flatten.

(** C63, ProblemManager::getFlattenedDesignVariableParameters, when the parameters of every variable are a column.
    Missing: matrices of parameters (false, see below). *)
Theorem C63_manager_flatten_partial : forall K (dvs : list (fdv K)), Forall well_shaped dvs -> Forall (fun d => f_min d <= length (f_par d)) dvs -> Forall (fun d => f_cols d <= 1) dvs ->
  flatten_manager dvs = Ok (map Some (all_parameters dvs)).
Proof. exact @manager_flat. Qed.
Print Assumptions C63_manager_flatten_partial.
Example C63_flatten_ex : Forall well_shaped [fd; fq; fp; fs] /\ Forall (fun d => (f_min d <= length (f_par d))%nat) [fd; fq; fp; fs] /\ Forall (fun d => (f_cols d <= 1)%nat) [fq; fp; fs].
Proof. exact toy_shapes. Qed.

(** In general only the first column of each parameter matrix is copied; the other entries of the result are not initialised. *)
Theorem C63_manager_general : forall K (dvs : list (fdv K)), Forall well_shaped dvs -> Forall (fun d => f_min d <= length (f_par d)) dvs ->
  flatten_manager dvs = Ok (concat (map (fun d => map Some (firstn (f_rows d) (f_par d)) ++ repeat None (f_rows d * f_cols d - f_rows d)) dvs)).
Proof. exact @manager_general. Qed.
Print Assumptions C63_manager_general.
(** So the property is false for the 3 x 3 parameters of a EuclideanDirection: six of nine entries are not initialised, and maxDeltaX of BFGS, computed from them, is undefined. *)
Theorem C63_manager_flatten_refuted : well_shaped fd /\ f_min fd <= length (f_par fd) /\ flatten_manager [fd] = Ok [Some 1%R; Some 0%R; Some 0%R; None; None; None; None; None; None] /\ maxDeltaX [fd] [fd] = UB /\
  flatten_utils [fd] [] = Ok (map Some (f_par fd)).
Proof. exact direction_garbage. Qed.
Print Assumptions C63_manager_flatten_refuted.

(** C63, utils::applyStateUpdate: design variable k is updated once, by its scaling times the slice of dx that starts behind the dimensions of the variables before it. *)
Theorem C63_update_slices : forall K (RK : CRing K) upd (dvs : list (fdv K)) dx, list_sum (map f_min dvs) <= length dx ->
  exists dvs', apply_update upd 0 dvs dx = Ok dvs' /\ length dvs' = length dvs /\
    forall k d, nth_error dvs k = Some d -> nth_error dvs' k = Some (upd d (map (fun x => kmul x (f_scale d)) (firstn (f_min d) (skipn (list_sum (map f_min (firstn k dvs))) dx)))).
Proof. exact (fun K RK upd dvs dx => update_slices upd dvs dx 0). Qed.
Print Assumptions C63_update_slices.
(** For vector-space variables the flattened vector moves by dx, entry by entry, times the scaling of the variable the entry belongs to. *)
Theorem C63_update_moves : forall K (RK : CRing K) (dvs : list (fdv K)) dx, Forall vector_space dvs -> length dx = list_sum (map f_min dvs) ->
  exists dvs', apply_update vec_update 0 dvs dx = Ok dvs' /\ Forall vector_space dvs' /\ length (all_parameters dvs') = length (all_parameters dvs) /\
    forall k, k < length (all_parameters dvs) -> nth k (all_parameters dvs') k0 = kadd (nth k (all_parameters dvs) k0) (kmul (nth k dx k0) (nth k (all_scalings dvs) k0)).
Proof. exact (fun K RK dvs dx => update_moves dvs dx 0). Qed.
Print Assumptions C63_update_moves.
(** maxDeltaX is then the largest scaled entry of dx in absolute value. *)
Theorem C63_max_delta_partial : forall (dvs : list (fdv R)) dx, Forall vector_space dvs -> all_parameters dvs <> [] -> length dx = list_sum (map f_min dvs) ->
  exists dvs' m, apply_update vec_update 0 dvs dx = Ok dvs' /\ maxDeltaX dvs dvs' = Ok m /\
    (forall k, k < length dx -> (Rabs (nth k dx 0 * nth k (all_scalings dvs) 0) <= m)%R) /\ exists k, k < length dx /\ (Rabs (nth k dx 0 * nth k (all_scalings dvs) 0) = m)%R.
Proof. exact max_step. Qed.
Print Assumptions C63_max_delta_partial.
Example C63_update_ex : Forall vector_space [fp; fs] /\ all_parameters [fp; fs] <> [] /\ length [1; -1; 3; 4]%R = list_sum (map f_min [fp; fs]).
Proof. exact toy_vs. Qed.
