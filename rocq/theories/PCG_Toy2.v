(** * Conjugate gradient over the real numbers: a matrix with a 1 x 1 and a 2 x 2 block on the diagonal *)
From Coq Require Import Reals Lra Arith Lia List ZArith Bool Sorting.Sorted.
From Verif Require Import Lib_Ring Lib_Real Lib_Res SBM_Model SBM_Spec PCG_Model PCG_Spec PCG_Spec2 PCG_Proofs2.
Import ListNotations.
Open Scope R_scope.

Definition lay2 : list nat := [1; 3]%nat.
Definition rows2 (l : list (list R)) : mat R := fun i j => nth j (nth i l []) 0.
Definition S3 : mat R := rows2 [[2; 1; 0]; [1; 3; 1]; [0; 1; 2]].
Definition A3 : sbm R := mkSbm lay2 lay2 [[(0%nat, rows2 [[2]])]; [(0%nat, rows2 [[1; 0]]); (1%nat, rows2 [[3; 1]; [1; 2]])]] true.
(* the inverse of a 1 x 1 or 2 x 2 block *)
Definition inv12 (n : nat) (M : mat R) : mat R :=
  match n with
  | 1%nat => fun _ _ => / M 0%nat 0%nat
  | _ => fun i j => let dt := M 0%nat 0%nat * M 1%nat 1%nat - M 0%nat 1%nat * M 1%nat 0%nat in
    rows2 [[M 1%nat 1%nat / dt; - M 0%nat 1%nat / dt]; [- M 1%nat 0%nat / dt; M 0%nat 0%nat / dt]] i j
  end.
Definition P3 (tol : R) (k : Z) : pcg R := mkPcg tol (-1) true k [].

Lemma lay2_ok : layout_ok lay2. Proof. intros [|[|b]] H; cbn in *; lia. Qed.
Lemma A3_holds : holds_upper A3 lay2 S3.
Proof.
  split.
  - constructor; cbn [s_rbi s_cbi s_cols A3]; try apply lay2_ok; auto.
    + intros [|[|[|k]]]; cbn [nth]; repeat constructor.
    + intros [|[|[|k]]] r B; cbn [nth]; intros H; cbn [In] in H; repeat match goal with H : _ \/ _ |- _ => destruct H as [H|H] | H : (_, _) = (_, _) |- _ => injection H as <- <- | H : False |- _ => destruct H end; cbn; lia.
  - repeat split; auto. intros [|[|br]] [|[|bc]] [|[|i]] [|[|j]]; intros H1 H2 H3 H4; try reflexivity; cbn in *; lia.
Qed.
Lemma S3_sym : sym (total lay2) S3. Proof. intros [|[|[|p]]] [|[|[|r]]] H1 H2; try reflexivity; cbn in *; lia. Qed.
Lemma S3_pos : pos_def (total lay2) S3.
Proof.
  intros v (i & Hi & Vi). unfold vdot, mvmul. cbn. set (a := v 0%nat) in *. set (b := v 1%nat) in *. set (c := v 2%nat) in *.
  replace (0 + a * (0 + 2 * a + 1 * b + 0 * c) + b * (0 + 1 * a + 3 * b + 1 * c) + c * (0 + 0 * a + 1 * b + 2 * c)) with (a * a + (a + b) * (a + b) + b * b + (b + c) * (b + c) + c * c) by ring.
  assert (Sq : forall x, 0 <= x * x) by (intros; nra). pose proof (Sq a). pose proof (Sq b). pose proof (Sq c). pose proof (Sq (a + b)). pose proof (Sq (b + c)).
  assert (Q : forall x, x <> 0 -> 0 < x * x) by (intros x Hx; destruct (Rdichotomy _ _ Hx); nra).
  destruct i as [|[|[|i]]]; [| | |cbn in Hi; lia]; apply Q in Vi; fold a b c in Vi; lra.
Qed.
Lemma A3_diag : diagonal_stored A3. Proof. intros [|[|i]] H; cbn in *; try lia; discriminate. Qed.
Lemma A3_inv : inverts lay2 inv12 A3.
Proof. intros [|[|b]] H; [| |cbn in H; lia]; intros [|[|i]] [|[|j]] Hi Hj; try (cbn in Hi, Hj; lia); unfold mmul, mid, delta; cbn; field; lra. Qed.
Lemma quot : quotient Rdiv. Proof. intros a b _. reflexivity. Qed.

(* the case applied: S3 x = (1, 2, 3) is solved by the default limit *)
Lemma case3 : exists P' x broke, pcg_solve Rdiv rleb rgtb (1/2) inv12 (P3 0 (-1)) A3 (fun i => INR (i + 1)) = Ok (P', x, true, broke) /\ x 0%nat = 1/2 /\ x 1%nat = 0 /\ x 2%nat = 3/2.
Proof.
  destruct (solve_exact Rdiv inv12 A3 lay2 S3 quot A3_holds S3_sym S3_pos A3_diag A3_inv (P3 0 (-1)) (fun i => INR (i + 1)) (or_introl eq_refl) eq_refl ltac:(cbn; lra) (or_introl eq_refl)) as (P' & x & broke & E & X).
  exists P', x, broke. split; auto. pose proof (X 0%nat ltac:(cbn; lia)) as X0. pose proof (X 1%nat ltac:(cbn; lia)) as X1. pose proof (X 2%nat ltac:(cbn; lia)) as X2. unfold mvmul in X0, X1, X2. cbn in X0, X1, X2. lra.
Qed.
Lemma tol3 : 0 <= 1 / 1000. Proof. lra. Qed.
Lemma not_enough : ~ enough (total lay2) (P3 (1/1000) 1). Proof. intros [H|H]; cbn in H; lia. Qed.
