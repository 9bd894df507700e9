(** * Specifications for the linear system solvers *)
From Coq Require Import Arith Lia List ZArith Bool Sorting.Sorted.
From Verif Require Import Lib_Ring Lib_Res CCM_Model SBM_Model SBM_Spec LinSolve_Model.
From Verif Require CCM_Spec.
Import ListNotations.

Section Spec.
  Context {K : Type} {R : CRing K}.
  (* the blocks of an error term belong to different design variables of the layout, in order *)
  Definition lterm_ok (l : list nat) (t : lterm K) : Prop := StronglySorted lt (map fst (lt_jac t)) /\ Forall (fun e => fst e < length l) (lt_jac t).

  (** ** the weighted Jacobian and the weighted error, by their definition *)
  (* the Jacobian of one error term with respect to all unknowns *)
  Definition raw_jac (l : list nat) (t : lterm K) (k q : nat) : K :=
    lsum (lt_jac t) (fun e => if (base l (fst e) <=? q) && (q <? base l (fst e) + bsize l (fst e)) then snd e k (q - base l (fst e)) else k0).
  (* sqrt(w) S^T J and sqrt(w) S^T e *)
  Definition term_jac (l : list nat) (t : lterm K) (p q : nat) : K := ksum (lt_dim t) (fun k => kmul (kmul (lt_sw t) (lt_S t k p)) (raw_jac l t k q)).
  Definition term_err (t : lterm K) (p : nat) : K := ksum (lt_dim t) (fun k => kmul (kmul (lt_sw t) (lt_S t k p)) (lt_err t k)).
  (* all error terms, one below the other *)
  Fixpoint J_of (l : list nat) (ts : list (lterm K)) (r q : nat) : K :=
    match ts with [] => k0 | t :: ts' => if r <? lt_dim t then term_jac l t r q else J_of l ts' (r - lt_dim t) q end.
  Fixpoint e_of (ts : list (lterm K)) (r : nat) : K :=
    match ts with [] => k0 | t :: ts' => if r <? lt_dim t then term_err t r else e_of ts' (r - lt_dim t) end.

  (* M x = b, for n equations *)
  Definition solves_eq (n : nat) (M : mat K) (x b : vec K) : Prop := forall p, p < n -> mvmul n M x p = b p.
  (* J^T J + diag(c)^2 *)
  Definition damped_normal (rows : nat) (J : mat K) (c : vec K) : mat K := fun p q => kadd (mmul rows (mtr J) J p q) (kmul (delta p q) (kmul (c p) (c p))).
  (* (J^T J + diag(c)^2) x = - J^T e *)
  Definition normal_equations (rows n : nat) (J : mat K) (e c x : vec K) : Prop :=
    solves_eq n (damped_normal rows J c) x (fun p => kopp (mvmul rows (mtr J) e p)).
  (* J diag(s), s constant on each design variable *)
  Definition scaled_cols (l : list nat) (s : nat -> K) (J : mat K) (J' : mat K) : Prop :=
    forall r b i, b < length l -> i < bsize l b -> J' r (base l b + i) = kmul (J r (base l b + i)) (s b).

  (** ** what is assumed of the numerical libraries *)
  (* a solver of symmetric systems that reads the blocks on and above the diagonal *)
  Definition symmetric_solver (bsolve : sbm K -> vec K -> option (vec K)) : Prop :=
    forall H l S b x, holds_upper H l S -> (forall p q, p < total l -> q < total l -> S p q = S q p) -> bsolve H b = Some x -> solves_eq (total l) S x b.
  (* CHOLMOD for unsymmetric storage: A A^T x = b *)
  Definition aat_solver (csolve : ccm K -> vec K -> option (vec K)) : Prop :=
    forall m A b x, CCM_Spec.well_formed m -> CCM_Spec.stands_for k0 m A -> csolve m b = Some x -> solves_eq (c_rows m) (mmul (c_cols m) A (mtr A)) x b.
  (* a least squares solution of A x = b satisfies A^T A x = A^T b *)
  Definition least_squares (rows cols : nat) (A : mat K) (b x : vec K) : Prop := solves_eq cols (mmul rows (mtr A) A) x (mvmul rows (mtr A) b).
  (* the matrix and the vector of the least squares problem that stands for the damped system: J over diag(c), and -e over zero *)
  Definition above_diag (use : bool) (rows : nat) (J : mat K) (c : vec K) : mat K := fun r q => if r <? rows then J r q else if use && (r - rows =? q) then c q else k0.
  Definition above_zero (rows : nat) (e : vec K) : vec K := fun r => if r <? rows then kopp (e r) else k0.
  (* the library gives a least squares solution of this problem *)
  Definition solves_problem (hqr : nat -> nat -> mat K -> vec K -> vec K) (rows cols : nat) (A : mat K) (b : vec K) : Prop :=
    forall A' b', meq rows cols A' A -> veq rows b' b -> least_squares rows cols A b (hqr rows cols A' b').
  (* the answer of the library depends on the matrix and the vector it is given only *)
  Definition depends_on_input (hqr : nat -> nat -> mat K -> vec K -> vec K) : Prop :=
    forall rows cols A A' b b', meq rows cols A A' -> veq rows b b' -> veq cols (hqr rows cols A b) (hqr rows cols A' b').
  (* what the builder of the transposed Jacobian needs: see C41 *)
  Definition buildable (l : list nat) (ts : list (lterm K)) (m : ccm K) : Prop :=
    layout_ok l /\ l <> [] /\ Forall (lterm_ok l) ts /\ (0 < Z.of_nat (length ts) <= 2147483647)%Z /\ (c_acc m = true \/ Forall (fun t => lt_jac t <> []) ts).
  (* a good square block matrix that owns its blocks *)
  Definition square_good (H : sbm K) (l : list nat) : Prop := exists A, represents H l l A.
End Spec.
