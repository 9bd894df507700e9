(** * Examples for C78: doubles *)
From Coq Require Import List ZArith.
From Flocq Require Import IEEE754.BinarySingleNaN.
From Verif Require Import Lib_Res Lib_Float Fin_Model Fin_Spec.
Import ListNotations.

(* two active design variables of dimension 1 and one that is not active *)
Definition v0 : dv := mkDv 0 true 0 0 1.
Definition v1 : dv := mkDv 1 true 1 1 1.
Definition v2 : dv := mkDv 2 false (-1) (-1) 1.
(* a matrix with one entry; the largest double *)
Definition one (x : b64) : fm b64 := mkFm 1 1 (fun _ _ => x).
Definition big : b64 := fl 9007199254740991 971.
(* a program: a factor, a Jacobian, the end of the factor, a Jacobian for another variable and one for the inactive one *)
Definition prog (x y : b64) : list (cop b64) := [Apply (one x); Add v0 (one y); End_; Add v1 (one (Lib_Float.fz 3)); Add v2 (one NaN)].
(* the containers after a program *)
Definition srun (l : list (cop b64)) : res (container b64 (smap b64)) := crun b64 f0 (Lib_Float.fz 1) Lib_Float.fadd Lib_Float.fmul (smap b64) (s_add b64 Lib_Float.fadd) (s_init b64 1) l.
Definition drun (l : list (cop b64)) : res (container b64 (fm b64)) := crun b64 f0 (Lib_Float.fz 1) Lib_Float.fadd Lib_Float.fmul (fm b64) (d_add b64 Lib_Float.fadd) (d_init b64 f0 1 2) l.
(* utils::isFinite for an expression of the three *)
Definition sfin (l : list (cop b64)) : res bool := do c <- srun l; u_isFinite (s_isFinite b64 is_finite (c_store c)) [v0; v1; v2].
Definition dfin (l : list (cop b64)) : res bool := do c <- drun l; u_isFinite (d_isFinite b64 is_finite (c_store c)) [v0; v1; v2].
(* the sum of two large Jacobians *)
Definition twice : list (cop b64) := [Add v0 (one big); Add v1 (one big); Add v0 (one big)].
Lemma overflow : exists ops : list (cop b64), all_handed b64 is_finite v0 [] ops /\ all_handed b64 is_finite v1 [] ops /\ sfin ops = Ok false /\ dfin ops = Ok false.
Proof. exists twice. split; [|split; [|split; vm_compute; reflexivity]]; cbn; repeat split; try discriminate; try (intros i j _ _; reflexivity); try constructor. Qed.
