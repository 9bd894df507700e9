From Coq Require Import Arith Lia List ZArith NArith Bool Reals Lra.
From Verif Require Import Lib_Ring Lib_Real Lib_Res MatrixStack_Model MatrixStack_Spec DesignVar_Base Jacobian_Model Jacobian_Spec Expr_Base Scalar_Model Scalar_Spec Scalar_Calc Scalar_Proofs Scalar_Proofs2 Geo_Model Geo_Spec Geo_Algebra Geo_Tangent Geo_Proofs Geo_Main Geo_Proofs2 Quat_Model Quat_Spec Quat_Proofs Adapt_Model Adapt_Spec.
Import ListNotations.
Local Open Scope R_scope.

Lemma der_uniq0 : forall f g l, near (fun h => f h = g h) -> derivable_pt_lim f 0 l -> derivable_pt_lim g 0 l.
Proof.
  intros f g l (d & Hd & E) D e He. destruct (D e He) as (b & Hb). assert (P : 0 < Rmin b d) by (apply Rmin_glb_lt; [apply cond_pos|auto]). exists (mkposreal _ P). intros h Hh Lh. cbn in Lh.
  rewrite <- (E 0) by (rewrite Rabs_R0; auto). rewrite <- (E (0 + h)). { apply Hb; auto. eapply Rlt_le_trans; [exact Lh|apply Rmin_l]. } rewrite Rplus_0_l. eapply Rlt_le_trans; [exact Lh|apply Rmin_r].
Qed.
(* a curve of unit quaternions moves at right angles to the quaternion *)
Lemma unit_tangent : forall g l, near (fun h => unit_quat (g h)) -> tanV 4 g l -> g 0 0%nat * l 0%nat + g 0 1%nat * l 1%nat + g 0 2%nat * l 2%nat + g 0 3%nat * l 3%nat = 0.
Proof.
  intros g l N T. assert (T0 := T 0%nat ltac:(lia)). assert (T1 := T 1%nat ltac:(lia)). assert (T2 := T 2%nat ltac:(lia)). assert (T3 := T 3%nat ltac:(lia)).
  assert (A := derivable_pt_lim_plus _ _ 0 _ _ (derivable_pt_lim_plus _ _ 0 _ _ (derivable_pt_lim_plus _ _ 0 _ _ (derivable_pt_lim_mult _ _ 0 _ _ T0 T0) (derivable_pt_lim_mult _ _ 0 _ _ T1 T1)) (derivable_pt_lim_mult _ _ 0 _ _ T2 T2)) (derivable_pt_lim_mult _ _ 0 _ _ T3 T3)).
  apply (der_uniq0 _ (fun _ => 1)) in A; [|eapply near_mono; [|exact N]; intros h H; exact H]. assert (B := uniqueness_limite _ 0 _ _ A (derivable_pt_lim_const 1 0)). lra.
Qed.
Ltac der := repeat first [eassumption | apply derivable_pt_lim_plus | apply derivable_pt_lim_minus | apply derivable_pt_lim_opp | apply derivable_pt_lim_mult | apply derivable_pt_lim_const].
Lemma tan_ext : forall f a b, derivable_pt_lim f 0 a -> a = b -> derivable_pt_lim f 0 b.
Proof. intros f a b H E. rewrite <- E. exact H. Qed.
(* the derivative of quat2r along l *)
Definition dquat (q l : vec R) : mat R := fun i j =>
  let x := q 0%nat in let y := q 1%nat in let z := q 2%nat in let w := q 3%nat in let a := l 0%nat in let b := l 1%nat in let c := l 2%nat in let d := l 3%nat in
  match i, j with
  | 0%nat, 0%nat => 2 * (x * a - y * b - z * c + w * d) | 0%nat, 1%nat => 2 * (a * y + x * b + c * w + z * d) | 0%nat, _ => 2 * (a * z + x * c - b * w - y * d)
  | 1%nat, 0%nat => 2 * (a * y + x * b - c * w - z * d) | 1%nat, 1%nat => 2 * (- x * a + y * b - z * c + w * d) | 1%nat, _ => 2 * (b * z + y * c + a * w + x * d)
  | _, 0%nat => 2 * (a * z + x * c + b * w + y * d) | _, 1%nat => 2 * (b * z + y * c - a * w - x * d) | _, _ => 2 * (- x * a - y * b + z * c + w * d) end.
Lemma der_quat : forall g l i j, (i < 3)%nat -> (j < 3)%nat -> tanV 4 g l -> derivable_pt_lim (fun h => quat2r (g h) i j) 0 (dquat (g 0) l i j).
Proof.
  intros g l i j Hi Hj T. assert (T0 := T 0%nat ltac:(lia)). assert (T1 := T 1%nat ltac:(lia)). assert (T2 := T 2%nat ltac:(lia)). assert (T3 := T 3%nat ltac:(lia)).
  set (x := fun h => g h 0%nat) in *. set (y := fun h => g h 1%nat) in *. set (z := fun h => g h 2%nat) in *. set (w := fun h => g h 3%nat) in *.
  idx i; idx j; cbn [quat2r dquat].
  - eapply (tan_ext (x * x - y * y - z * z + w * w)%F); [der|unfold fct_cte, plus_fct, minus_fct, mult_fct, opp_fct, x, y, z, w; ring].
  - eapply (tan_ext (fct_cte 2 * (x * y + z * w))%F); [der|unfold fct_cte, plus_fct, minus_fct, mult_fct, opp_fct, x, y, z, w; ring].
  - eapply (tan_ext (fct_cte 2 * (x * z - y * w))%F); [der|unfold fct_cte, plus_fct, minus_fct, mult_fct, opp_fct, x, y, z, w; ring].
  - eapply (tan_ext (fct_cte 2 * (x * y - z * w))%F); [der|unfold fct_cte, plus_fct, minus_fct, mult_fct, opp_fct, x, y, z, w; ring].
  - eapply (tan_ext (- x * x + y * y - z * z + w * w)%F); [der|unfold fct_cte, plus_fct, minus_fct, mult_fct, opp_fct, x, y, z, w; ring].
  - eapply (tan_ext (fct_cte 2 * (y * z + x * w))%F); [der|unfold fct_cte, plus_fct, minus_fct, mult_fct, opp_fct, x, y, z, w; ring].
  - eapply (tan_ext (fct_cte 2 * (x * z + y * w))%F); [der|unfold fct_cte, plus_fct, minus_fct, mult_fct, opp_fct, x, y, z, w; ring].
  - eapply (tan_ext (fct_cte 2 * (y * z - x * w))%F); [der|unfold fct_cte, plus_fct, minus_fct, mult_fct, opp_fct, x, y, z, w; ring].
  - eapply (tan_ext (- x * x - y * y + z * z + w * w)%F); [der|unfold fct_cte, plus_fct, minus_fct, mult_fct, opp_fct, x, y, z, w; ring].
Qed.
Lemma lie : forall q l i j, (i < 3)%nat -> (j < 3)%nat -> unit_quat q -> q 0%nat * l 0%nat + q 1%nat * l 1%nat + q 2%nat * l 2%nat + q 3%nat * l 3%nat = 0 ->
  dquat q l i j = - mmul 3 (crossm (mvmul 4 (toLieAlgebra q) l)) (quat2r q) i j.
Proof.
  intros q l i j Hi Hj U T. unfold unit_quat in U.
  assert (A : dquat q l i j * (q 0%nat * q 0%nat + q 1%nat * q 1%nat + q 2%nat * q 2%nat + q 3%nat * q 3%nat) =
    - mmul 3 (crossm (mvmul 4 (toLieAlgebra q) l)) (quat2r q) i j + 2 * quat2r q i j * (q 0%nat * l 0%nat + q 1%nat * l 1%nat + q 2%nat * l 2%nat + q 3%nat * l 3%nat)).
  { idx i; idx j; expand; cbn [crossm toLieAlgebra quatOPlus quatInv quat2r dquat Nat.ltb Nat.leb]; unfold toLieAlgebra, quatOPlus, quatInv; rewrite ?ks4; cbn [Nat.ltb Nat.leb kadd kmul RRing]; ring. }
  rewrite U, T in A. lra.
Qed.
Lemma adapt_vel : forall g l, near (fun h => unit_quat (g h)) -> tanV 4 g l -> tanR (fun h => quat2r (g h)) (mvmul 4 (toLieAlgebra (g 0)) l).
Proof.
  intros g l N T. split. { eapply near_mono; [|exact N]. intros h H. apply quat_rot; auto. }
  intros i j Hi Hj. eapply tan_ext; [apply der_quat; eauto|]. apply lie; auto. { apply near_0 in N. exact N. } apply unit_tangent; auto.
Qed.

Section Main.
  Variables (X : kinematics) (par_dom : mat R -> Prop) (kinds : nat -> kind) (s : state) (al : nat).
  Hypothesis KO : kinematics_ok X par_dom.
  Hypothesis SO : state_ok kinds s.
  Hypothesis Ha : (0 < al)%nat.
  Lemma adapt_main : forall e, vxwf kinds e -> vxsize e = 4%nat -> vxdom X par_dom e s -> stack_room 3 al (vxwidth e) (S (vxdepth e)) -> wf_dvs (vxdvs e) ->
    exists C ops c, adapt_val X e s = Ok C /\ adapt_jac X e s = Ok ops /\ jc_run _ sp_addJ al (sp_init 3) ops = Ok c /\
      forall d j, In d (vxdvs e) -> dv_active d = true -> (j < dv_dim d)%nat -> stays_unit X kinds e s d j ->
        is_rot C /\ forall p q, (p < 3)%nat -> (q < 3)%nat -> 
        gpartial X kinds (fun s => do C <- adapt_val X e s; Ok (C p q)) s d j (- mmul 3 (crossm (fun i => jacobian_entry (jc_store c) d i j)) C p q).
  Proof.
    intros e W S4 Dm Ro Wd. destruct (proj1 (proj2 (main X par_dom kinds s (vxwidth e) KO SO (proj1 (proj2 widths) e))) e W Dm (le_n _)) as ((v & ops & D & G) & Lw).
    destruct G as (E & J & C & I1 & P). rewrite S4 in *.
    set (M := toLieAlgebra v). set (ops' := scope (CApply (mkD 3 4 M)) ops).
    assert (C' : contributes 3 (vxwidth e) (S (vxdepth e)) ops' (fun d => mmul 4 M (D d))) by (apply conM; auto).
    assert (I' : forall x, In x (ops_dvs ops') -> In x (vxdvs e)) by (intros x; unfold ops'; rewrite ops_scopeM; apply I1).
    destruct (contributes_entry 3 _ _ ops' _ al (vxdvs e) C' Ha eq_refl (stack_room_room _ _ _ _ Ro) Wd I') as (c & Er & _ & En).
    exists (quat2r v), ops', c. split; [unfold adapt_val; rewrite E; auto|]. split; [unfold adapt_jac; rewrite E; cbn [bind]; rewrite J; auto|]. split; [exact Er|].
    intros d j Hd Ad Hj U. destruct (P d j (proj1 (proj2 (dvs_ok kinds)) e W d Hd) Hj) as (g & Cg & Tg). assert (G0 := curve_at0 X par_dom kinds s KO _ _ _ _ _ _ Cg E).
    assert (N : near (fun h => unit_quat (g h))). { eapply near_mono; [|apply (near_and _ _ Cg U)]. intros h (H1 & H2). apply H2. exact H1. }
    destruct (adapt_vel g _ N Tg) as (NR & V). split. { apply near_0 in NR. rewrite G0 in NR. exact NR. }
    intros p q Hp Hq. apply (tan_partial _ _ _ _ _ _ (fun h => quat2r (g h) p q)).
    - exact (curve_map (mat R) R _ (fun h => quat2r (g h)) (fun C : mat R => C p q) (curve_map (vec R) (mat R) _ g quat2r Cg)).
    - rewrite <- G0. apply (vel_ext (fun h => quat2r (g h)) (mvmul 4 (toLieAlgebra (g 0)) (fun i => D d i j))); auto. intros k Hk. symmetry. etransitivity; [apply En; auto|]. rewrite G0. reflexivity.
  Qed.
End Main.
