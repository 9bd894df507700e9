(** * Derivatives of geometric expressions: combinators (proofs only) *)
From Coq Require Import Arith Lia List ZArith NArith Bool Reals Lra FunctionalExtensionality.
From Verif Require Import Lib_Ring Lib_Real Lib_Res MatrixStack_Model MatrixStack_Spec DesignVar_Base Jacobian_Model Jacobian_Spec Expr_Base Scalar_Model Scalar_Spec Scalar_Calc Scalar_Proofs Geo_Model Geo_Spec Geo_Algebra.
Import ListNotations.
Local Open Scope R_scope.

Lemma near_0 : forall P, near P -> P 0.
Proof. intros P (d & Hd & H). apply H. rewrite Rabs_R0. auto. Qed.
Lemma near_all : forall P : R -> Prop, (forall h, P h) -> near P.
Proof. intros P H. exists 1. split; [lra|auto]. Qed.
Lemma near_mono : forall P Q : R -> Prop, (forall h, P h -> Q h) -> near P -> near Q.
Proof. intros P Q H (d & Hd & E). exists d. split; auto. Qed.
Lemma near_and : forall P Q, near P -> near Q -> near (fun h => P h /\ Q h).
Proof.
  intros P Q (d & Hd & E) (d' & Hd' & E'). exists (Rmin d d'). split; [apply Rmin_glb_lt; auto|]. intros h Hh.
  split; [apply E|apply E']; (eapply Rlt_le_trans; [apply Hh|]; [apply Rmin_l]) || (eapply Rlt_le_trans; [apply Hh|apply Rmin_r]).
Qed.
Definition curve {V} (f : R -> res V) (g : R -> V) : Prop := near (fun h => f h = Ok (g h)).

Definition tanS (g : R -> R) (l : vec R) : Prop := derivable_pt_lim g 0 (l 0%nat).
Definition tanV (n : nat) (g : R -> vec R) (l : vec R) : Prop := forall i, (i < n)%nat -> derivable_pt_lim (fun h => g h i) 0 (l i).
Definition tanR (g : R -> mat R) (l : vec R) : Prop := near (fun h => is_rot (g h)) /\ rot_velocity g l.
Definition ang (l : vec R) : vec R := fun k => l (3 + k)%nat.
Definition tanT (g : R -> mat R) (l : vec R) : Prop :=
  near (fun h => rigid (g h)) /\ rot_velocity g (ang l) /\ (forall i, (i < 3)%nat -> derivable_pt_lim (fun h => g h i 3%nat) 0 (l i + mvmul 3 (crossm (trans_part (g 0))) (ang l) i)).

(** derivatives of products *)
Lemma der_mv : forall n A x A' x' i, (forall k, (k < n)%nat -> derivable_pt_lim (fun h => A h i k) 0 (A' k)) -> (forall k, (k < n)%nat -> derivable_pt_lim (fun h => x h k) 0 (x' k)) ->
  derivable_pt_lim (fun h : R => mvmul n (A h) (x h) i) 0 (ksum n (fun k => A' k * x 0 k + A 0 i k * x' k)).
Proof. intros n A x A' x' i HA Hx. unfold mvmul. apply (der_ksum n (fun k h => A h i k * x h k)). intros k Hk. apply (der_mul (fun h => A h i k) (fun h => x h k)); auto. Qed.
Lemma der_mm : forall n A B A' B' i j, (forall k, (k < n)%nat -> derivable_pt_lim (fun h => A h i k) 0 (A' k)) -> (forall k, (k < n)%nat -> derivable_pt_lim (fun h => B h k j) 0 (B' k)) ->
  derivable_pt_lim (fun h : R => mmul n (A h) (B h) i j) 0 (ksum n (fun k => A' k * B 0 k j + A 0 i k * B' k)).
Proof. intros n A B A' B' i j HA HB. unfold mmul. apply (der_ksum n (fun k h => A h i k * B h k j)). intros k Hk. apply (der_mul (fun h => A h i k) (fun h => B h k j)); auto. Qed.

Section Comb.
  Variables (X : kinematics) (par_dom : mat R -> Prop) (kinds : nat -> kind) (s : state) (w : nat).
  Hypothesis KO : kinematics_ok X par_dom.
  Hypothesis SO : state_ok kinds s.
  Definition gp (d : dvr) (j : nat) (h : R) : state := gperturb X kinds s d j h.

  Lemma gp0 : forall d j, gp d j 0 = s.
  Proof.
    intros d j. destruct KO as (K1 & _ & _ & K4 & _ & K6 & _). apply functional_extensionality. intros id. unfold gp, gperturb. destruct (Nat.eqb_spec id (dv_id d)) as [E|E]; auto.
    destruct (kinds id); cbn [update_value]; auto; apply functional_extensionality; intros i.
    - destruct (_ =? _)%nat; [ring|auto].
    - destruct (Nat.ltb_spec i 9) as [L|L]; auto. assert (i mod 3 < 3)%nat by (apply Nat.mod_upper_bound; lia). assert (i / 3 < 3)%nat by (apply Nat.div_lt_upper_bound; lia).
      transitivity (mmul 3 (m3 (s id)) mid (i / 3)%nat (i mod 3)%nat).
      + unfold mmul. apply ksum_ext. intros k Hk. f_equal. unfold mtr. rewrite K6 by auto. unfold mid. apply delta_sym.
      + transitivity (m3 (s id) (i / 3)%nat (i mod 3)%nat); [apply (@ksum_delta_r R RRing 3 (i mod 3) (fun k => m3 (s id) (i / 3)%nat k)); auto|]. unfold m3. f_equal. rewrite <- Nat.div_mod; lia.
    - destruct (_ <? _)%nat; [ring|auto].
  Qed.
  Lemma gp_ok : forall d j h, state_ok kinds (gp d j h).
  Proof.
    intros d j h id K. destruct KO as (_ & _ & K3 & _). unfold gp, gperturb. destruct (Nat.eqb_spec id (dv_id d)) as [E|E]; [|apply SO; auto]. rewrite K. cbn [update_value]. apply K3. apply SO; auto.
  Qed.

  Definition good {V} (tan : (R -> V) -> vec R -> Prop) (m depth : nat) (dvs : list dvr) (val : state -> res V) (jac : res (list (@cop R))) (v : V) (ops : list (@cop R)) (D : dmatrix) : Prop :=
    val s = Ok v /\ jac = Ok ops /\ contributes m w depth ops D /\ (forall x, In x (ops_dvs ops) -> In x dvs) /\
    forall d j, dv_ok kinds d -> (j < dv_dim d)%nat -> exists g, curve (fun h => val (gp d j h)) g /\ tan g (fun i => D d i j).

  Lemma curve_at0 : forall V (val : state -> res V) d j g v, curve (fun h => val (gp d j h)) g -> val s = Ok v -> g 0 = v.
  Proof. intros V val d j g v C E. apply near_0 in C. rewrite gp0 in C. congruence. Qed.

  (* the calls ops' put the Jacobian M in front of the calls ops *)
  Definition step (c m : nat) (ops ops' : list (@cop R)) (M : mat R) : Prop :=
    (forall depth D, contributes c w depth ops D -> contributes m w (S depth) ops' (fun d => mmul c M (D d))) /\ ops_dvs ops' = ops_dvs ops.
  Lemma step_id : forall c ops, step c c ops ops mid.
  Proof.
    intros c ops. split; auto. intros depth D C. eapply con_ext; [|eapply con_w; [|exact C]; lia]. intros d i j Hi. symmetry. unfold mmul, mid. apply (@ksum_delta_l R RRing c i (fun k => D d k j)). auto.
  Qed.
  Lemma step_S : forall m ops a, (m <= w)%nat -> step m m ops (scope (CApplyS a) ops) (fun i k => a * delta i k).
  Proof.
    intros m ops a Hm. split; [|apply ops_scopeS]. intros depth D C. eapply con_ext; [|apply conS; [exact Hm|exact C]]. intros d i j Hi. cbn beta. symmetry. unfold mmul.
    rewrite (ksum_ext m _ (fun k => kmul (delta i k) (a * D d k j))) by (intros; cbn; ring). apply (@ksum_delta_l R RRing m i (fun k => a * D d k j)). auto.
  Qed.
  Lemma step_M : forall c m ops M, (c <= w)%nat -> step c m ops (scope (CApply (mkD m c M)) ops) M.
  Proof. intros c m ops M Hm. split; [|apply ops_scopeM]. intros depth D C. apply conM; auto. Qed.

  Lemma good_1 : forall V V1 (tan : (R -> V) -> vec R -> Prop) (tan1 : (R -> V1) -> vec R -> Prop) m c depth d1 dvs dvs1 val val1 jac jac1 x1 o1 D1 (F : V1 -> res V) v ops M,
    good tan1 c d1 dvs1 val1 jac1 x1 o1 D1 -> step c m o1 ops M ->
    (forall s x, val1 s = Ok x -> val s = F x) -> F x1 = Ok v -> jac = Ok ops -> (S d1 <= depth)%nat -> (forall x, In x dvs1 -> In x dvs) ->
    (forall g l, g 0 = x1 -> tan1 g l -> exists g', near (fun h => F (g h) = Ok (g' h)) /\ tan g' (fun i => ksum c (fun k => M i k * l k))) ->
    good tan m depth dvs val jac v ops (fun d => mmul c M (D1 d)).
  Proof.
    intros V V1 tan tan1 m c depth d1 dvs dvs1 val val1 jac jac1 x1 o1 D1 F v ops M (E & J & C & I1 & P) (St & So) HF Fv HJ Hd Hi HT.
    split; [rewrite (HF s x1); auto|]. split; auto. split; [eapply con_w; [exact Hd|]; apply St; auto|]. split; [rewrite So; auto|].
    intros d j Kd Hj. destruct (P d j Kd Hj) as (g & Cg & Tg). destruct (HT g _ (curve_at0 _ _ _ _ _ _ Cg E) Tg) as (g' & N & T'). exists g'. split; [|exact T'].
    eapply near_mono; [|apply (near_and _ _ Cg N)]. intros h (H1 & H2). cbn beta in *. rewrite (HF _ _ H1). exact H2.
  Qed.
  Lemma good_2 : forall V V1 V2 (tan : (R -> V) -> vec R -> Prop) (tan1 : (R -> V1) -> vec R -> Prop) (tan2 : (R -> V2) -> vec R -> Prop) m c1 c2 depth d1 d2 dvs dvs1 dvs2 val val1 val2 jac jac1 jac2 x1 x2 o1 o2 D1 D2
    (F : V1 -> V2 -> res V) v p1 p2 M1 M2,
    good tan1 c1 d1 dvs1 val1 jac1 x1 o1 D1 -> good tan2 c2 d2 dvs2 val2 jac2 x2 o2 D2 -> step c1 m o1 p1 M1 -> step c2 m o2 p2 M2 ->
    (forall s x y, val1 s = Ok x -> val2 s = Ok y -> val s = F x y) -> F x1 x2 = Ok v -> jac = Ok (p1 ++ p2) -> (S (Nat.max d1 d2) <= depth)%nat -> (forall x, In x dvs1 -> In x dvs) -> (forall x, In x dvs2 -> In x dvs) ->
    (forall g1 g2 l1 l2, g1 0 = x1 -> g2 0 = x2 -> tan1 g1 l1 -> tan2 g2 l2 ->
       exists g', near (fun h => F (g1 h) (g2 h) = Ok (g' h)) /\ tan g' (fun i => ksum c1 (fun k => M1 i k * l1 k) + ksum c2 (fun k => M2 i k * l2 k))) ->
    good tan m depth dvs val jac v (p1 ++ p2) (fun d i j => mmul c1 M1 (D1 d) i j + mmul c2 M2 (D2 d) i j).
  Proof.
    intros V V1 V2 tan tan1 tan2 m c1 c2 depth d1 d2 dvs dvs1 dvs2 val val1 val2 jac jac1 jac2 x1 x2 o1 o2 D1 D2 F v p1 p2 M1 M2
      (E1 & J1 & C1 & I1 & P1) (E2 & J2 & C2 & I2 & P2) (St1 & So1) (St2 & So2) HF Fv HJ Hd Hi1 Hi2 HT.
    split; [rewrite (HF s x1 x2); auto|]. split; auto. split; [apply (conA m w depth p1 p2 (fun d => mmul c1 M1 (D1 d)) (fun d => mmul c2 M2 (D2 d))); (eapply con_w; [|first [apply St1; exact C1|apply St2; exact C2]]; lia)|].
    split. { intros x Hx. rewrite ops_app, So1, So2 in Hx. apply in_app_or in Hx. destruct Hx; auto. }
    intros d j Kd Hj. destruct (P1 d j Kd Hj) as (g1 & Cg1 & Tg1). destruct (P2 d j Kd Hj) as (g2 & Cg2 & Tg2).
    destruct (HT g1 g2 _ _ (curve_at0 _ _ _ _ _ _ Cg1 E1) (curve_at0 _ _ _ _ _ _ Cg2 E2) Tg1 Tg2) as (g' & N & T'). exists g'. split; [|exact T'].
    eapply near_mono; [|apply (near_and _ _ (near_and _ _ Cg1 Cg2) N)]. intros h ((H1 & H2) & H3). cbn beta in *. rewrite (HF _ _ _ H1 H2). exact H3.
  Qed.
  (* no design variables *)
  Lemma good_const : forall V (tan : (R -> V) -> vec R -> Prop) m val jac v, (forall s, val s = Ok v) -> jac = Ok [] -> tan (fun _ => v) (fun _ => 0) -> good tan m 0 [] val jac v [] (fun _ _ _ => 0).
  Proof.
    intros V tan m val jac v E J T. split; auto. split; auto. split; [apply con0|]. split; [auto|]. intros d j _ _. exists (fun _ => v). split; auto. apply near_all. auto.
  Qed.
End Comb.
