From Coq Require Import Arith Lia List ZArith NArith Bool Reals Lra.
From Verif Require Import Lib_Ring Lib_Real Lib_Res MatrixStack_Model DesignVar_Base Jacobian_Model Scalar_Model Geo_Model Geo_Spec Geo_Algebra Geo_Toy Empty_Model Empty_Proofs.
Import ListNotations.
Local Open Scope R_scope.
(** inverse of a transformation *)
Lemma tinv_val : forall X pd s n a A S, kinematics_ok X pd -> htrf X a s = Ok A -> rigid A -> meq 4 4 (mmul 4 S A) mid -> exists T, htrf X (t_inv n a) s = Ok T /\ meq 4 4 T S.
Proof.
  intros X pd s n a A S KO Ha RA HS. destruct a as [|e|]; cbn in *; try discriminate.
  - injection Ha as <-. exists mid. split; [reflexivity|]. intros i j Hi Hj. rewrite <- (HS i j Hi Hj). unfold mmul, mid. rewrite (ksum_delta_r 4 j (fun k => S i k)) by auto. reflexivity.
  - rewrite Ha. cbn. eexists. split; [reflexivity|]. apply KO; assumption.
Qed.
