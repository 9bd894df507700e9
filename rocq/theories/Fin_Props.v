(** * C78: Jacobians that are not finite are noticed *)
From Coq Require Import List ZArith Lia Permutation.
From Flocq Require Import IEEE754.BinarySingleNaN.
From Verif Require Import Lib_Res Lib_Float Fin_Model Fin_Spec Fin_Proofs Fin_Toy.
Import ListNotations.

(** doubles: infinities and NaN never become finite again by addition or multiplication *)
Theorem C78_doubles : absorbing b64 is_finite Lib_Float.fadd Lib_Float.fmul.
Proof. exact b64_absorbing. Qed.
Print Assumptions C78_doubles.

(** the sparse container: when utils::isFinite says yes, then for every active design variable of the expression every Jacobian that was handed over for it and every chain rule factor that was in
    effect was finite, over any sequence of calls; so one infinity or NaN anywhere cannot hide behind a product with zero, or be cancelled by a later summand *)
Theorem C78_detects_sparse : forall F fz fo fadd fmul fin, absorbing F fin fadd fmul -> forall r ops c dvs, 0 < r -> crun F fz fo fadd fmul (smap F) (s_add F fadd) (s_init F r) ops = Ok c ->
  (forall d, In d dvs -> 0 < v_dim d /\ sized F d r [] ops) -> u_isFinite (s_isFinite F fin (c_store c)) dvs = Ok true -> forall d, In d dvs -> v_active d = true -> all_handed F fin d [] ops.
Proof. exact detects_sparse. Qed.
Print Assumptions C78_detects_sparse.
Example C78_detects_sparse_case : (exists c, srun (prog f0 (Lib_Float.fz 5)) = Ok c) /\ (forall d, In d [v0; v1; v2] -> 0 < v_dim d /\ sized b64 d 1 [] (prog f0 (Lib_Float.fz 5))) /\
  sfin (prog f0 (Lib_Float.fz 5)) = Ok true /\ sfin (prog inf f0) = Ok false /\ sfin (prog f0 NaN) = Ok false.
Proof.
  split; [eexists; reflexivity|]. split; [|repeat split; vm_compute; reflexivity].
  intros d [<-|[<-|[<-|[]]]]; (split; [cbn; lia|]); cbn; repeat split; intros; try lia; try discriminate; auto.
Qed.

(** the dense container *)
Theorem C78_detects_dense : forall F fz fo fadd fmul fin, absorbing F fin fadd fmul -> forall r n ops c dvs, 0 < r -> crun F fz fo fadd fmul (fm F) (d_add F fadd) (d_init F fz r n) ops = Ok c ->
  (forall d, In d dvs -> 0 < v_dim d /\ sized F d r [] ops) -> u_isFinite (d_isFinite F fin (c_store c)) dvs = Ok true -> forall d, In d dvs -> v_active d = true -> all_handed F fin d [] ops.
Proof. exact detects_dense. Qed.
Print Assumptions C78_detects_dense.
Example C78_detects_dense_case : (exists c, drun (prog f0 (Lib_Float.fz 5)) = Ok c) /\ dfin (prog f0 (Lib_Float.fz 5)) = Ok true /\ dfin (prog inf f0) = Ok false /\ dfin (prog f0 NaN) = Ok false.
Proof. split; [eexists; reflexivity|]. repeat split; vm_compute; reflexivity. Qed.

(** the answer of the sparse container for one design variable: yes exactly if all entries of the sum are finite; an exception exactly if no Jacobian was handed over *)
Theorem C78_sparse : forall F fz fo fadd fmul fin r ops c d, crun F fz fo fadd fmul (smap F) (s_add F fadd) (s_init F r) ops = Ok c ->
  match s_isFinite F fin (c_store c) d with
  | Ok b => exists M, s_find F (c_store c) d = Some M /\ (b = true <-> finite F fin M)
  | Throw => forall o, In o ops -> for_dv F d o = false
  | UB => False
  end.
Proof. exact sparse_answers. Qed.
Print Assumptions C78_sparse.
Theorem C78_sparse_missing : forall F fz fo fadd fmul fin r ops c d, crun F fz fo fadd fmul (smap F) (s_add F fadd) (s_init F r) ops = Ok c -> (forall o, In o ops -> for_dv F d o = false) -> s_isFinite F fin (c_store c) d = Throw.
Proof. exact sparse_throws. Qed.
Print Assumptions C78_sparse_missing.
Example C78_sparse_case : sfin [Add v0 (one inf)] = Ok false /\ sfin [Add v0 (one f0)] = Throw. Proof. split; vm_compute; reflexivity. Qed.
(** the answer of the dense container: yes exactly if all entries in the columns of the design variable are finite; no exception for columns inside the matrix *)
Theorem C78_dense : forall F fin (m : fm F) d, (0 <= v_col d)%Z -> (v_col d + Z.of_nat (v_dim d) <= Z.of_nat (cols m))%Z ->
  exists b, d_isFinite F fin m d = Ok b /\ (b = true <-> forall i j, i < rows m -> j < v_dim d -> fin (at_ m i (Z.to_nat (v_col d) + j)) = true).
Proof. exact dense_answers. Qed.
Print Assumptions C78_dense.
Example C78_dense_case : dfin [Add v0 (one inf)] = Ok false /\ dfin [Add v0 (one f0)] = Ok true. Proof. split; vm_compute; reflexivity. Qed.

(** utils::isFinite asks all active design variables, and no others *)
Theorem C78_loop : forall check dvs, (u_isFinite check dvs = Ok true <-> forall d, In d dvs -> v_active d = true -> check d = Ok true) /\
  (forall r, u_isFinite check dvs = r -> r <> Ok true -> exists d, In d dvs /\ v_active d = true /\ check d = r).
Proof. exact loop_answers. Qed.
Print Assumptions C78_loop.
(** the order in which the unordered_set is traversed does not matter when the container knows all active design variables *)
Theorem C78_order_partial : forall check l l', Permutation l l' -> (forall d, In d l -> v_active d = true -> exists b, check d = Ok b) -> u_isFinite check l = u_isFinite check l'.
Proof. exact u_order. Qed.
Print Assumptions C78_order_partial.
(** otherwise it decides between the answer no and an exception *)
Theorem C78_order_refuted : forall check d1 d2, v_active d1 = true -> v_active d2 = true -> check d1 = Ok false -> check d2 = Throw -> u_isFinite check [d1; d2] = Ok false /\ u_isFinite check [d2; d1] = Throw.
Proof. exact order_matters. Qed.
Print Assumptions C78_order_refuted.
Example C78_order_case : match srun [Add v0 (one inf)] with Ok c => s_isFinite b64 is_finite (c_store c) v0 = Ok false /\ s_isFinite b64 is_finite (c_store c) v1 = Throw | _ => False end.
Proof. split; vm_compute; reflexivity. Qed.

(** the other direction fails: everything handed over is finite, the sum is not *)
Theorem C78_overflow_refuted : exists ops : list (cop b64), all_handed b64 is_finite v0 [] ops /\ all_handed b64 is_finite v1 [] ops /\ sfin ops = Ok false /\ dfin ops = Ok false.
Proof. exact overflow. Qed.
Print Assumptions C78_overflow_refuted.
