(** * Specifications for the marginalizer *)
From Coq Require Import Arith Lia List ZArith Bool Reals.
From Verif Require Import Lib_Ring Lib_Real Lib_Res SBM_Model LinSolve_Model LinSolve_Spec Marg_Model.
Import ListNotations.

Local Open Scope nat_scope.

Section Spec.
  Context {K : Type} {RK : CRing K}.
  (* |J x + e|^2 *)
  Definition cost (rows cols : nat) (J : mat K) (e x : vec K) : K := ksum rows (fun r => kmul (kadd (mvmul cols J x r) (e r)) (kadd (mvmul cols J x r) (e r))).
  (* x1 for the first m unknowns, y for the others *)
  Definition both (m : nat) (x1 y : vec K) : vec K := fun i => if i <? m then x1 i else y (i - m).
  (* A = Q F on and above the diagonal, with an orthogonal Q *)
  Definition qr_of (rows cols : nat) (A Q F : mat K) : Prop :=
    meq rows cols A (mmul rows Q (fun r c => if r <=? c then F r c else k0)) /\ meq rows rows (mmul rows (mtr Q) Q) mid /\ meq rows rows (mmul rows Q (mtr Q)) mid.
  Definition two_sided_inverse (n : nat) (A X : mat K) : Prop := meq n n (mmul n A X) mid /\ meq n n (mmul n X A) mid.
  (* the linearised problem of a world: dimensions, Jacobian and errors by their definition *)
  Definition w_layout (w : world K) : list nat := ends 0 (map v_dim (w_dvs w)).
  Definition w_terms (w : world K) : list (lterm K) := map t_term (w_ets w).
  Definition w_J (w : world K) : mat K := J_of (w_layout w) (w_terms w).
  Definition w_e (w : world K) : vec K := e_of (w_terms w).
  Definition w_rows (w : world K) : nat := jrows (w_terms w).
  Definition w_cols (w : world K) : nat := list_sum (map v_dim (w_dvs w)).
  Definition removed_dim (w : world K) (remove : Z) : nat := list_sum (map v_dim (firstn (Z.to_nat remove) (w_dvs w))).
  (* one difference vector for each remaining design variable *)
  Definition differences (dvs : list mdv) (diffs : list (nat * vec K)) : Prop := map fst diffs = map v_dim dvs.
  (* the vector they make up *)
  Fixpoint joined (diffs : list (nat * vec K)) (i : nat) : K :=
    match diffs with [] => k0 | (n, v) :: ds => if i <? n then v i else joined ds (i - n) end.
  (* the sum of the Jacobian blocks times the changes of their design variables *)
  Fixpoint apply_jacobians (Js : list (mat K)) (deltas : list (nat * vec K)) (i : nat) : K :=
    match Js, deltas with J :: Js', (n, v) :: ds => kadd (mvmul n J v i) (apply_jacobians Js' ds i) | _, _ => k0 end.
  (* the changes of the differences: M times the change, design variable by design variable *)
  Fixpoint apply_M (Ms : list (nat * mat K)) (deltas : list (nat * vec K)) : list (nat * vec K) :=
    match Ms, deltas with (n, M) :: Ms', (n', v) :: ds => (n, mvmul n' M v) :: apply_M Ms' ds | _, _ => [] end.
End Spec.
(* v is the minimum of f over n unknowns *)
Definition is_minimum (f : vec R -> R) (v : R) : Prop := (forall x, (v <= f x)%R) /\ exists x, f x = v.
(* the first m columns are linearly independent *)
Definition independent (rows m : nat) (J : mat R) : Prop := forall x : vec R, (forall r, r < rows -> mvmul m J x r = 0%R) -> forall i, i < m -> x i = 0%R.
(* the QR decomposition is right for the Jacobian of this world *)
Definition qr_good {K} {RK : CRing K} (qr : nat -> nat -> mat K -> mat K * mat K) (w : world K) : Prop :=
  forall A, meq (w_rows w) (w_cols w) A (w_J w) -> qr_of (w_rows w) (w_cols w) A (fst (qr (w_rows w) (w_cols w) A)) (snd (qr (w_rows w) (w_cols w) A)).
(* the inversion is right for every invertible matrix with n rows *)
Definition inverse_good {K} {RK : CRing K} (inverse : nat -> mat K -> mat K) (n : nat) : Prop :=
  forall A, (exists X, two_sided_inverse n A X) -> two_sided_inverse n A (inverse n A).
(* the error terms refer to the design variables of the list, each in the order of the list *)
Definition w_ok {K} (w : world K) : Prop := Forall (lterm_ok (w_layout w)) (w_terms w).
