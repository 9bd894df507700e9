(** * Commutative rings, finite sums and function matrices.

    Shared mathematical library.  Nothing in this file models code of /repo:
    it is the arithmetic the other files are stated in.  A commutative ring is a
    record of operations together with its laws (no axioms); theorems about the
    models quantify over it. *)
From Coq Require Import Arith Lia List Permutation Ring Ring_theory ZArith QArith Qcanon Setoid Morphisms.
Import ListNotations.

Class CRing (K : Type) := mkCRing {
  k0 : K; k1 : K;
  kadd : K -> K -> K; kmul : K -> K -> K; ksub : K -> K -> K; kopp : K -> K;
  kring : ring_theory k0 k1 kadd kmul ksub kopp (@eq K)
}.

Declare Scope K_scope.
Delimit Scope K_scope with K.
Notation "a + b" := (kadd a b) : K_scope.
Notation "a * b" := (kmul a b) : K_scope.
Notation "a - b" := (ksub a b) : K_scope.
Notation "- a" := (kopp a) : K_scope.
Notation "0" := k0 : K_scope.
Notation "1" := k1 : K_scope.

#[global] Instance ZRing : CRing Z :=
  mkCRing Z 0%Z 1%Z Z.add Z.mul Z.sub Z.opp
    (mk_rt 0%Z 1%Z Z.add Z.mul Z.sub Z.opp eq
       Z.add_0_l Z.add_comm Z.add_assoc Z.mul_1_l Z.mul_comm Z.mul_assoc
       Z.mul_add_distr_r (fun x y => eq_sym (Z.add_opp_r x y)) Z.add_opp_diag_r).

#[global] Instance QcRing : CRing Qc :=
  mkCRing Qc (Q2Qc 0) (Q2Qc 1) Qcplus Qcmult Qcminus Qcopp Qcrt.

Section Sums.
Context {K : Type} {R : CRing K}.
Add Ring Kring : (@kring K R).
Open Scope K_scope.

Lemma k_add_0_l : forall a : K, 0 + a = a. Proof. intros; ring. Qed.
Lemma k_add_0_r : forall a : K, a + 0 = a. Proof. intros; ring. Qed.
Lemma k_mul_0_l : forall a : K, 0 * a = 0. Proof. intros; ring. Qed.
Lemma k_mul_0_r : forall a : K, a * 0 = 0. Proof. intros; ring. Qed.
Lemma k_mul_1_l : forall a : K, 1 * a = a. Proof. intros; ring. Qed.
Lemma k_mul_1_r : forall a : K, a * 1 = a. Proof. intros; ring. Qed.
Lemma k_add_comm : forall a b : K, a + b = b + a. Proof. intros; ring. Qed.
Lemma k_add_assoc : forall a b c : K, a + (b + c) = a + b + c. Proof. intros; ring. Qed.
Lemma k_mul_comm : forall a b : K, a * b = b * a. Proof. intros; ring. Qed.
Lemma k_mul_assoc : forall a b c : K, a * (b * c) = a * b * c. Proof. intros; ring. Qed.
Lemma k_mul_add_l : forall a b c : K, a * (b + c) = a * b + a * c. Proof. intros; ring. Qed.
Lemma k_mul_add_r : forall a b c : K, (a + b) * c = a * c + b * c. Proof. intros; ring. Qed.

(** [ksum n f] = f 0 + ... + f (n-1). *)
Fixpoint ksum (n : nat) (f : nat -> K) : K :=
  match n with O => 0 | S m => ksum m f + f m end.

Lemma ksum_ext : forall n f g, (forall i, (i < n)%nat -> f i = g i) -> ksum n f = ksum n g.
Proof.
  induction n; intros f g H; simpl; [reflexivity|].
  rewrite (IHn f g), (H n) by (intros; auto with arith); reflexivity.
Qed.

Lemma ksum_zero : forall n f, (forall i, (i < n)%nat -> f i = 0) -> ksum n f = 0.
Proof.
  induction n; intros f H; simpl; [reflexivity|].
  rewrite IHn, H by (intros; auto with arith); ring.
Qed.

Lemma ksum_add : forall n f g, ksum n (fun i => f i + g i) = ksum n f + ksum n g.
Proof. induction n; intros; simpl; [ring|]. rewrite IHn. ring. Qed.

Lemma ksum_opp : forall n f, ksum n (fun i => - f i) = - ksum n f.
Proof. induction n; intros; simpl; [ring|]. rewrite IHn. ring. Qed.

Lemma ksum_sub : forall n f g, ksum n (fun i => f i - g i) = ksum n f - ksum n g.
Proof. induction n; intros; simpl; [ring|]. rewrite IHn. ring. Qed.

Lemma ksum_mul_l : forall n a f, ksum n (fun i => a * f i) = a * ksum n f.
Proof. induction n; intros; simpl; [ring|]. rewrite IHn. ring. Qed.

Lemma ksum_mul_r : forall n a f, ksum n (fun i => f i * a) = ksum n f * a.
Proof. induction n; intros; simpl; [ring|]. rewrite IHn. ring. Qed.

Lemma ksum_swap : forall n m (f : nat -> nat -> K),
  ksum n (fun i => ksum m (fun j => f i j)) = ksum m (fun j => ksum n (fun i => f i j)).
Proof.
  induction n; intros; simpl.
  - symmetry; apply ksum_zero; reflexivity.
  - rewrite IHn, <- ksum_add. reflexivity.
Qed.

Lemma ksum_split : forall n m f, ksum (n + m) f = ksum n f + ksum m (fun i => f (n + i)%nat).
Proof.
  intros n m f; induction m; simpl.
  - rewrite Nat.add_0_r; ring.
  - rewrite Nat.add_succ_r. simpl. rewrite IHm. ring.
Qed.

Lemma ksum_S_l : forall n f, ksum (S n) f = f O + ksum n (fun i => f (S i)).
Proof.
  intros. change (S n) with (1 + n)%nat. rewrite ksum_split. simpl. ring.
Qed.

Lemma ksum_single : forall n k f, (k < n)%nat ->
  (forall i, (i < n)%nat -> i <> k -> f i = 0) -> ksum n f = f k.
Proof.
  induction n; intros k f Hk H; [lia|]. simpl.
  destruct (Nat.eq_dec k n) as [->|Hne].
  - rewrite ksum_zero by (intros; apply H; lia). ring.
  - rewrite (IHn k) by (try lia; intros; apply H; lia).
    rewrite (H n) by lia. ring.
Qed.

(** kronecker delta *)
Definition delta (i j : nat) : K := if Nat.eqb i j then 1 else 0.

Lemma delta_refl : forall i, delta i i = 1.
Proof. intros; unfold delta; rewrite Nat.eqb_refl; reflexivity. Qed.
Lemma delta_neq : forall i j, i <> j -> delta i j = 0.
Proof. intros; unfold delta; rewrite (proj2 (Nat.eqb_neq i j)); auto. Qed.
Lemma delta_sym : forall i j, delta i j = delta j i.
Proof. intros; unfold delta; rewrite Nat.eqb_sym; reflexivity. Qed.

Lemma ksum_delta_l : forall n k f, (k < n)%nat -> ksum n (fun i => delta k i * f i) = f k.
Proof.
  intros. rewrite (ksum_single n k) by (auto; intros; rewrite delta_neq by auto; ring).
  rewrite delta_refl; ring.
Qed.
Lemma ksum_delta_r : forall n k f, (k < n)%nat -> ksum n (fun i => f i * delta i k) = f k.
Proof.
  intros. rewrite (ksum_single n k) by (auto; intros; rewrite delta_neq by auto; ring).
  rewrite delta_refl; ring.
Qed.

(** sum over a list *)
Fixpoint lsum {A} (l : list A) (f : A -> K) : K :=
  match l with nil => 0 | x :: t => f x + lsum t f end.

Lemma lsum_app : forall A (l1 l2 : list A) f, lsum (l1 ++ l2) f = lsum l1 f + lsum l2 f.
Proof. induction l1; intros; simpl; [ring|]. rewrite IHl1. ring. Qed.
Lemma lsum_ext : forall A (l : list A) f g, (forall x, In x l -> f x = g x) -> lsum l f = lsum l g.
Proof.
  induction l; intros; simpl; [reflexivity|].
  rewrite H by (left; reflexivity). rewrite (IHl f g); auto. intros; apply H; right; auto.
Qed.
Lemma lsum_zero : forall A (l : list A) f, (forall x, In x l -> f x = 0) -> lsum l f = 0.
Proof.
  induction l; intros; simpl; [reflexivity|].
  rewrite H by (left; reflexivity). rewrite IHl; [ring|]. intros; apply H; right; auto.
Qed.
Lemma lsum_add : forall A (l : list A) f g, lsum l (fun x => f x + g x) = lsum l f + lsum l g.
Proof. induction l; intros; simpl; [ring|]. rewrite IHl. ring. Qed.
Lemma lsum_mul_l : forall A (l : list A) a f, lsum l (fun x => a * f x) = a * lsum l f.
Proof. induction l; intros; simpl; [ring|]. rewrite IHl. ring. Qed.
Lemma lsum_mul_r : forall A (l : list A) a f, lsum l (fun x => f x * a) = lsum l f * a.
Proof. induction l; intros; simpl; [ring|]. rewrite IHl. ring. Qed.
Lemma lsum_opp : forall A (l : list A) f, lsum l (fun x => - f x) = - lsum l f.
Proof. induction l; intros; simpl; [ring|]. rewrite IHl. ring. Qed.
Lemma lsum_map : forall A B (h : A -> B) l f, lsum (map h l) f = lsum l (fun x => f (h x)).
Proof. induction l; intros; simpl; [reflexivity|]. rewrite IHl. reflexivity. Qed.
Lemma lsum_flat_map : forall A B (h : A -> list B) l f,
  lsum (flat_map h l) f = lsum l (fun x => lsum (h x) f).
Proof. induction l; intros; simpl; [reflexivity|]. rewrite lsum_app, IHl. reflexivity. Qed.
Lemma lsum_ksum_swap : forall A (l : list A) n (f : A -> nat -> K),
  lsum l (fun x => ksum n (f x)) = ksum n (fun i => lsum l (fun x => f x i)).
Proof.
  induction l; intros; simpl.
  - symmetry; apply ksum_zero; reflexivity.
  - rewrite IHl, <- ksum_add. apply ksum_ext; reflexivity.
Qed.
Lemma lsum_perm : forall A (l1 l2 : list A) f,
  Permutation.Permutation l1 l2 -> lsum l1 f = lsum l2 f.
Proof. intros A l1 l2 f H; induction H; simpl; try congruence. ring. Qed.
Lemma lsum_seq : forall n f, lsum (seq 0 n) f = ksum n f.
Proof.
  induction n; intros; [reflexivity|].
  rewrite seq_S, lsum_app, IHn. simpl. ring.
Qed.

(** ** Matrices and vectors as functions of the indices; dimensions are explicit. *)
Definition mat := nat -> nat -> K.
Definition vec := nat -> K.

Definition meq (r c : nat) (A B : mat) : Prop :=
  forall i j, (i < r)%nat -> (j < c)%nat -> A i j = B i j.
Definition veq (n : nat) (u v : vec) : Prop := forall i, (i < n)%nat -> u i = v i.

Definition mmul (n : nat) (A B : mat) : mat := fun i j => ksum n (fun k => A i k * B k j).
Definition mvmul (n : nat) (A : mat) (v : vec) : vec := fun i => ksum n (fun k => A i k * v k).
Definition mtr (A : mat) : mat := fun i j => A j i.
Definition madd (A B : mat) : mat := fun i j => A i j + B i j.
Definition msub (A B : mat) : mat := fun i j => A i j - B i j.
Definition mopp (A : mat) : mat := fun i j => - A i j.
Definition mscale (a : K) (A : mat) : mat := fun i j => a * A i j.
Definition mid : mat := delta.
Definition mzero : mat := fun _ _ => 0.
Definition vadd (u v : vec) : vec := fun i => u i + v i.
Definition vsub (u v : vec) : vec := fun i => u i - v i.
Definition vscale (a : K) (v : vec) : vec := fun i => a * v i.
Definition vdot (n : nat) (u v : vec) : K := ksum n (fun i => u i * v i).

Lemma meq_refl : forall r c A, meq r c A A. Proof. intros r c A i j _ _; reflexivity. Qed.
Lemma meq_sym : forall r c A B, meq r c A B -> meq r c B A.
Proof. intros r c A B H i j Hi Hj; symmetry; auto. Qed.
Lemma meq_trans : forall r c A B C, meq r c A B -> meq r c B C -> meq r c A C.
Proof. intros r c A B C H1 H2 i j Hi Hj; rewrite H1, H2; auto. Qed.
Lemma veq_refl : forall n u, veq n u u. Proof. intros n u i _; reflexivity. Qed.
Lemma veq_sym : forall n u v, veq n u v -> veq n v u.
Proof. intros n u v H i Hi; symmetry; auto. Qed.
Lemma veq_trans : forall n u v w, veq n u v -> veq n v w -> veq n u w.
Proof. intros n u v w H1 H2 i Hi; rewrite H1, H2; auto. Qed.

Lemma mmul_ext : forall r n c A A' B B',
  meq r n A A' -> meq n c B B' -> meq r c (mmul n A B) (mmul n A' B').
Proof.
  intros r n c A A' B B' HA HB i j Hi Hj. apply ksum_ext; intros k Hk.
  rewrite HA, HB by auto. reflexivity.
Qed.

Lemma mmul_assoc_pt : forall n m A B C i j,
  mmul m (mmul n A B) C i j = mmul n A (mmul m B C) i j.
Proof.
  intros; unfold mmul.
  transitivity (ksum m (fun k => ksum n (fun l => A i l * B l k * C k j))).
  - apply ksum_ext; intros. rewrite <- ksum_mul_r. reflexivity.
  - rewrite ksum_swap. apply ksum_ext; intros. rewrite <- ksum_mul_l.
    apply ksum_ext; intros; ring.
Qed.

Lemma mmul_assoc : forall r c n m A B C,
  meq r c (mmul m (mmul n A B) C) (mmul n A (mmul m B C)).
Proof. intros r c n m A B C i j _ _. apply mmul_assoc_pt. Qed.

Lemma mmul_id_l : forall r c A, meq r c (mmul r mid A) A.
Proof. intros r c A i j Hi Hj. unfold mmul, mid. apply ksum_delta_l with (f := fun k => A k j); auto. Qed.
Lemma mmul_id_r : forall r c A, meq r c (mmul c A mid) A.
Proof. intros r c A i j Hi Hj. unfold mmul, mid. apply ksum_delta_r with (f := A i); auto. Qed.

Lemma mmul_add_l : forall n A B C i j, mmul n (madd A B) C i j = mmul n A C i j + mmul n B C i j.
Proof. intros; unfold mmul, madd. rewrite <- ksum_add. apply ksum_ext; intros; ring. Qed.
Lemma mmul_add_r : forall n A B C i j, mmul n A (madd B C) i j = mmul n A B i j + mmul n A C i j.
Proof. intros; unfold mmul, madd. rewrite <- ksum_add. apply ksum_ext; intros; ring. Qed.
Lemma mmul_sub_l : forall n A B C i j, mmul n (msub A B) C i j = mmul n A C i j - mmul n B C i j.
Proof. intros; unfold mmul, msub. rewrite <- ksum_sub. apply ksum_ext; intros; ring. Qed.
Lemma mmul_sub_r : forall n A B C i j, mmul n A (msub B C) i j = mmul n A B i j - mmul n A C i j.
Proof. intros; unfold mmul, msub. rewrite <- ksum_sub. apply ksum_ext; intros; ring. Qed.
Lemma mmul_scale_l : forall n a A B i j, mmul n (mscale a A) B i j = a * mmul n A B i j.
Proof. intros; unfold mmul, mscale. rewrite <- ksum_mul_l. apply ksum_ext; intros; ring. Qed.
Lemma mmul_scale_r : forall n a A B i j, mmul n A (mscale a B) i j = a * mmul n A B i j.
Proof. intros; unfold mmul, mscale. rewrite <- ksum_mul_l. apply ksum_ext; intros; ring. Qed.
Lemma mmul_tr : forall n A B i j, mtr (mmul n A B) i j = mmul n (mtr B) (mtr A) i j.
Proof. intros; unfold mmul, mtr. apply ksum_ext; intros; ring. Qed.

Lemma mvmul_mmul : forall n m A B v i, mvmul m (mmul n A B) v i = mvmul n A (mvmul m B v) i.
Proof.
  intros; unfold mvmul, mmul.
  transitivity (ksum m (fun k => ksum n (fun l => A i l * B l k * v k))).
  - apply ksum_ext; intros. rewrite <- ksum_mul_r. reflexivity.
  - rewrite ksum_swap. apply ksum_ext; intros. rewrite <- ksum_mul_l.
    apply ksum_ext; intros; ring.
Qed.
Lemma mvmul_ext : forall r n A B u v, meq r n A B -> veq n u v -> veq r (mvmul n A u) (mvmul n B v).
Proof.
  intros r n A B u v HA Hv i Hi. apply ksum_ext; intros. rewrite HA, Hv; auto.
Qed.
Lemma mvmul_add : forall n A u v i, mvmul n A (vadd u v) i = mvmul n A u i + mvmul n A v i.
Proof. intros; unfold mvmul, vadd. rewrite <- ksum_add. apply ksum_ext; intros; ring. Qed.
Lemma mvmul_sub : forall n A u v i, mvmul n A (vsub u v) i = mvmul n A u i - mvmul n A v i.
Proof. intros; unfold mvmul, vsub. rewrite <- ksum_sub. apply ksum_ext; intros; ring. Qed.
Lemma mvmul_scale : forall n A a v i, mvmul n A (vscale a v) i = a * mvmul n A v i.
Proof. intros; unfold mvmul, vscale. rewrite <- ksum_mul_l. apply ksum_ext; intros; ring. Qed.
Lemma mvmul_id : forall n v i, (i < n)%nat -> mvmul n mid v i = v i.
Proof. intros; unfold mvmul, mid. apply ksum_delta_l with (f := v); auto. Qed.

Lemma vdot_comm : forall n u v, vdot n u v = vdot n v u.
Proof. intros; unfold vdot; apply ksum_ext; intros; ring. Qed.
Lemma vdot_add_l : forall n u v w, vdot n (vadd u v) w = vdot n u w + vdot n v w.
Proof. intros; unfold vdot, vadd. rewrite <- ksum_add. apply ksum_ext; intros; ring. Qed.
Lemma vdot_add_r : forall n u v w, vdot n w (vadd u v) = vdot n w u + vdot n w v.
Proof. intros; unfold vdot, vadd. rewrite <- ksum_add. apply ksum_ext; intros; ring. Qed.
Lemma vdot_sub_l : forall n u v w, vdot n (vsub u v) w = vdot n u w - vdot n v w.
Proof. intros; unfold vdot, vsub. rewrite <- ksum_sub. apply ksum_ext; intros; ring. Qed.
Lemma vdot_sub_r : forall n u v w, vdot n w (vsub u v) = vdot n w u - vdot n w v.
Proof. intros; unfold vdot, vsub. rewrite <- ksum_sub. apply ksum_ext; intros; ring. Qed.
Lemma vdot_scale_l : forall n a u w, vdot n (vscale a u) w = a * vdot n u w.
Proof. intros; unfold vdot, vscale. rewrite <- ksum_mul_l. apply ksum_ext; intros; ring. Qed.
Lemma vdot_scale_r : forall n a u w, vdot n w (vscale a u) = a * vdot n w u.
Proof. intros; unfold vdot, vscale. rewrite <- ksum_mul_l. apply ksum_ext; intros; ring. Qed.
Lemma vdot_ext : forall n u u' v v', veq n u u' -> veq n v v' -> vdot n u v = vdot n u' v'.
Proof. intros n u u' v v' H1 H2. apply ksum_ext; intros; rewrite H1, H2; auto. Qed.
Lemma vdot_mvmul : forall n m A u v, vdot n u (mvmul m A v) = vdot m (mvmul n (mtr A) u) v.
Proof.
  intros; unfold vdot, mvmul, mtr.
  transitivity (ksum n (fun i => ksum m (fun j => u i * A i j * v j))).
  - apply ksum_ext; intros. rewrite <- ksum_mul_l. apply ksum_ext; intros; ring.
  - rewrite ksum_swap. apply ksum_ext; intros. rewrite <- ksum_mul_r.
    apply ksum_ext; intros; ring.
Qed.
End Sums.

Arguments mat K : clear implicits.
Arguments vec K : clear implicits.
