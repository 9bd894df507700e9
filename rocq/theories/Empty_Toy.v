(** * Concrete expressions with empty operands *)
From Coq Require Import Arith Lia List ZArith NArith Bool Reals Lra.
From Verif Require Import Lib_Ring Lib_Real Lib_Res MatrixStack_Model DesignVar_Base Jacobian_Model Scalar_Model Scalar_Spec Geo_Model Geo_Spec Geo_Algebra Geo_Toy Empty_Model Empty_Proofs.
Import ListNotations.
Local Open Scope R_scope.

Definition v123 : vec R := fun i => INR (i + 1).
(* a constant, an empty handle and a design variable, summed starting from an empty handle *)
Definition toy_list : list (handle vx) := [HNode (VxConst 3 v123); HNull; HNode (VxVar gD); HNull].
Lemma toy_list_vals : Forall2 (fun e v => heval toy_kin e toy_st = Ok v) toy_list [v123; (fun _ => 0); toy_st (dv_id gD); (fun _ => 0)].
Proof. repeat constructor. Qed.
Lemma toy_list_sum : heval toy_kin (fold_left e_add toy_list HNull) toy_st = Ok (fun i => 0 + lsum [v123; (fun _ => 0); toy_st (dv_id gD); (fun _ => 0)] (fun v => v i)).
Proof. apply sum_val; [reflexivity|apply toy_list_vals]. Qed.

Lemma sub_refuted : exists (a b : handle vx) x y z, heval toy_kin a toy_st = Ok x /\ heval toy_kin b toy_st = Ok y /\ heval toy_kin (e_sub a b) toy_st = Ok z /\ z 0%nat <> x 0%nat - y 0%nat.
Proof. exists HNull, (HNode (VxConst 3 v123)), (fun _ => 0), v123, v123. repeat split; auto. cbn. lra. Qed.
Lemma subc_refuted : exists (a : handle vx) c x z, heval toy_kin a toy_st = Ok x /\ heval toy_kin (e_subc a c) toy_st = Ok z /\ z 0%nat <> x 0%nat - c 0%nat.
Proof. exists HNull, v123, (fun _ => 0), v123. repeat split; auto. cbn. lra. Qed.
Lemma elem_refuted : exists (a b : handle vx) x y, heval toy_kin a toy_st = Ok x /\ heval toy_kin b toy_st = Ok y /\ heval toy_kin (e_elem a b) toy_st = UB.
Proof. exists HNull, (HNode (VxConst 3 v123)), (fun _ => 0), v123. repeat split; auto. Qed.
Lemma tapply_refuted : exists (t : handle tx) (p : handle vx) T x, htrf toy_kin t toy_st = Ok T /\ heval toy_kin p toy_st = Ok x /\ heval toy_kin (t_apply 0 t p) toy_st = UB.
Proof. exists (t_new HNull (HNode (VxConst 3 v123))), HNull, (mk_T mid v123), (fun _ => 0). repeat split; auto. Qed.
Lemma generic_refuted : exists (a b : gx) x y, gval a toy_st = Ok x /\ gval b toy_st = Ok y /\ gval (GAdd a b) toy_st = UB /\ gval (GSub a b) toy_st = UB.
Proof. exists GNull, (GConst 1), 0, 1. repeat split; auto. Qed.
Lemma rigid_mid : rigid mid.
Proof. split; [apply rot_id|split]; [intros j Hj; idx j; reflexivity|reflexivity]. Qed.
Lemma gen_ex : GConst 1 <> GNull /\ GConst 2 <> GNull /\ gval (GConst 1) toy_st = Ok 1 /\ gval (GConst 2) toy_st = Ok 2.
Proof. repeat split; discriminate. Qed.
Lemma toy_list_jacs : exists js, Forall2 (fun e j => hejac toy_kin e toy_st = Ok j) toy_list js /\ length (concat js) = 1%nat.
Proof. eexists [_; _; _; _]. split; [repeat (constructor; [reflexivity|]); constructor|reflexivity]. Qed.
