(** * Properties C03 - C06: Jacobian containers and normal equations *)
From Coq Require Import Arith Lia List NArith ZArith Permutation.
From Verif Require Import Lib_Ring Lib_Res MatrixStack_Model MatrixStack_Spec MatrixStack_Props DesignVar_Base
  Jacobian_Model Jacobian_Spec Jacobian_Proofs Jacobian_Proofs2 Jacobian_Proofs3.
Import ListNotations.

(** [cop_of] translates an abstract event into the container call the client makes. *)

(** C03: after any sequence of calls, Jacobian(d) of every active design variable that was
    mentioned is the sum over its occurrences of chain product times Jacobian, the container
    holds no other design variable and none twice. *)
Theorem C03_sparse_container_sums_over_paths :
  forall (K : Type) (R : CRing K) (n al : nat) (evs : list (@event K)) cs fs,
  0 < al -> (N.of_nat n < 65536)%N -> cruns n al [] evs cs fs -> wf_dvs (event_dvs evs) ->
  exists c, jc_run _ sp_addJ al (sp_init n) (map cop_of evs) = Ok c /\
    (forall d M, In (d, M) (jc_store c) <->
       In d (event_dvs evs) /\ dv_active d = true /\ sp_Jacobian (jc_store c) d = Ok M) /\
    NoDup (map fst (jc_store c)) /\
    forall d, In d (event_dvs evs) -> dv_active d = true ->
      exists M, sp_Jacobian (jc_store c) d = Ok M /\ d_rows M = n /\ d_cols M = dv_dim d /\
        forall i j, i < n -> j < dv_dim d -> d_at M i j = total cs d i j.
Proof. exact (fun K R => @sparse_accumulates K R). Qed.
Print Assumptions C03_sparse_container_sums_over_paths.

(** C03: a prescaling wrapper around a container with its own chain multiplies everything that
    passes through it by the scalar and by the wrapped container's chain. *)
Theorem C03_prescaled_container_sums_over_paths :
  forall (K : Type) (R : CRing K) (n al : nat) (evs0 : list (@event K)) cs0 fs0 (a : K) evs cs fs,
  0 < al -> (N.of_nat n < 65536)%N -> cruns n al [] evs0 cs0 fs0 ->
  (N.of_nat (prod_cols n fs0) < 65536)%N -> cruns (prod_cols n fs0) al [] evs cs fs ->
  wf_dvs (event_dvs (evs0 ++ evs)) ->
  exists c0 c, jc_run _ sp_addJ al (sp_init n) (map cop_of evs0) = Ok c0 /\
    ps_run sp_addJ al a (mkJC (ms_init (prod_cols n fs0) 100 9) c0) (map cop_of evs) = Ok c /\
    forall d, In d (event_dvs (evs0 ++ evs)) -> dv_active d = true ->
      exists M, sp_Jacobian (jc_store (jc_store c)) d = Ok M /\ d_rows M = n /\ d_cols M = dv_dim d /\
        forall i j, i < n -> j < dv_dim d ->
          d_at M i j = kadd (total cs0 d i j)
            (mmul (prod_cols n fs0) (prod_mat n fs0) (mscale a (total cs d)) i j).
Proof. exact (fun K R => @prescaled_accumulates K R). Qed.
Print Assumptions C03_prescaled_container_sums_over_paths.

(** C04: the dense container holds the dense expansion of the sparse one *)
Theorem C04_sparse_dense_agree :
  forall (K : Type) (R : CRing K) (n cols al : nat) (evs : list (@event K)) cs fs (cbi : list nat),
  0 < al -> (N.of_nat n < 65536)%N -> cruns n al [] evs cs fs -> wf_dvs (event_dvs evs) ->
  wf_cols cols (event_dvs evs) ->
  (forall d, In d (event_dvs evs) -> dv_active d = true ->
      Z.of_nat (block_base cbi (dv_block d)) = dv_col d) ->
  exists cS cD, jc_run _ sp_addJ al (sp_init n) (map cop_of evs) = Ok cS /\
    jc_run _ de_addJ al (de_init n cols) (map cop_of evs) = Ok cD /\
    forall i j, i < n -> sp_asDense cbi (jc_store cS) i j = de_mat (jc_store cD) i j.
Proof. exact (fun K R => @sparse_dense_agree K R). Qed.
Print Assumptions C04_sparse_dense_agree.

(** C05: adding container B, optionally through a chain-rule matrix, to container A *)
Theorem C05_merge_adds :
  forall (K : Type) (R : CRing K) (n al : nat) (evs1 : list (@event K)) cs1 fs1 evs2 cs2 fs2 (C : option (@dmat K)),
  0 < al -> (N.of_nat n < 65536)%N ->
  cruns n al [] evs1 cs1 fs1 -> cruns n al [] evs2 cs2 fs2 ->
  wf_dvs (event_dvs (evs1 ++ evs2)) ->
  match C with Some c => d_cols c = n /\ d_rows c = n | None => True end ->
  exists c1 c2 m', jc_run _ sp_addJ al (sp_init n) (map cop_of evs1) = Ok c1 /\
    jc_run _ sp_addJ al (sp_init n) (map cop_of evs2) = Ok c2 /\
    sp_merge n n C (jc_store c1) (jc_store c2) = Ok m' /\
    (forall e, In e m' -> In (fst e) (event_dvs (evs1 ++ evs2)) /\ dv_active (fst e) = true) /\
    forall d, In d (event_dvs (evs1 ++ evs2)) -> dv_active d = true ->
      exists M, sp_Jacobian m' d = Ok M /\ d_rows M = n /\ d_cols M = dv_dim d /\
      forall i j, i < n -> j < dv_dim d -> d_at M i j =
        kadd (total cs1 d i j) (match C with None => total cs2 d i j
                                | Some c => mmul n (d_at c) (total cs2 d) i j end).
Proof. exact (fun K R => @merge_of_runs K R). Qed.
Print Assumptions C05_merge_adds.

(** C05: applyChainRule(A) premultiplies every block by A, for any container content *)
Theorem C05_apply_chain_rule_premultiplies :
  forall (K : Type) (R : CRing K) (rows : nat) (m : @jmap K) (A : @dmat K), d_cols A = rows ->
  exists m', sp_applyChainRule rows m A = Ok (d_rows A, m') /\ map fst m' = map fst m /\
    forall d, sp_Jacobian m' d = (do J <- sp_Jacobian m d; Ok (dmul A J)).
Proof. exact (fun K R => @chain_pointwise K R). Qed.
Print Assumptions C05_apply_chain_rule_premultiplies.

(** C05 outside square chain rules: A has 1 row, B has 2 rows, C is 1x2, so A + C*B is well
    formed, but the call is refused. *)
Theorem C05_rectangular_chain_refuted :
  exists (C : @dmat Z) (d : dvar Z) (A B : @dmat Z),
    d_rows C = d_rows A /\ d_cols C = d_rows B /\ d_cols A = d_cols B /\
    sp_merge (d_rows A) (d_rows B) (Some C) [(d, A)] [(d, B)] = Throw.
Proof. exact (ex_intro _ (mkD 1 2 (fun _ _ => 1%Z)) (ex_intro _ (mkDv 1 true 0 0 3 1%Z)
  (ex_intro _ (mkD 1 3 (fun _ _ => 1%Z)) (ex_intro _ (mkD 2 3 (fun _ _ => 1%Z))
   (conj eq_refl (conj eq_refl (conj eq_refl eq_refl))))))). Qed.
Print Assumptions C05_rectangular_chain_refuted.

(** C06: the assembled system is J^T W J and -J^T W e, with the design-variable scaling *)
Theorem C06_normal_equations :
  forall (K : Type) (R : CRing K) (al : nat) (ds : list (dvar K)) (base : nat -> nat),
  0 < al -> wf_dvs ds -> wf_base base ds ->
  forall ts : list (@eterm K), (forall t, In t ts -> wf_eterm al ds t) ->
  exists H rhs, buildSystem base al (map code_of ts) = Ok (H, rhs) /\
  (forall d1 d2, In d1 ds -> In d2 ds -> dv_active d1 = true -> dv_active d2 = true ->
     (dv_block d1 <= dv_block d2)%Z -> forall i j, i < dv_dim d1 -> j < dv_dim d2 ->
     H (Z.to_nat (dv_block d1)) (Z.to_nat (dv_block d2)) i j =
     kmul (kmul (dv_scaling d1) (dv_scaling d2)) (lsum ts (fun t => JtWJ t d1 d2 i j))) /\
  (forall b1 b2 i j, b2 < b1 -> H b1 b2 i j = k0) /\
  (forall d, In d ds -> dv_active d = true -> forall k, k < dv_dim d ->
     rhs (base (Z.to_nat (dv_block d)) + k) =
     kopp (kmul (dv_scaling d) (lsum ts (fun t => JtWe t d k)))).
Proof. exact (fun K R => @normal_equations K R). Qed.
Print Assumptions C06_normal_equations.

(** C06: the order in which the terms are visited does not matter *)
Theorem C06_order_independent :
  forall (K : Type) (R : CRing K) (al : nat) (ds : list (dvar K)) (base : nat -> nat),
  0 < al -> wf_dvs ds -> wf_base base ds ->
  forall ts ts' : list (@eterm K), Permutation ts ts' -> (forall t, In t ts -> wf_eterm al ds t) ->
  exists H rhs H' rhs', buildSystem base al (map code_of ts) = Ok (H, rhs) /\
  buildSystem base al (map code_of ts') = Ok (H', rhs') /\
  (forall d1 d2 i j, In d1 ds -> In d2 ds -> dv_active d1 = true -> dv_active d2 = true ->
     i < dv_dim d1 -> j < dv_dim d2 ->
     H (Z.to_nat (dv_block d1)) (Z.to_nat (dv_block d2)) i j = H' (Z.to_nat (dv_block d1)) (Z.to_nat (dv_block d2)) i j) /\
  (forall d k, In d ds -> dv_active d = true -> k < dv_dim d ->
     rhs (base (Z.to_nat (dv_block d)) + k) = rhs' (base (Z.to_nat (dv_block d)) + k)).
Proof. exact (fun K R => @normal_equations_order K R). Qed.
Print Assumptions C06_order_independent.

(** ** Concrete case: two active variables out of order (d2 is met before d1, d1 three times,
    nested chain rules), one inactive. *)
Definition ex_d1 : dvar Z := mkDv 1 true 0 0 2 3%Z.
Definition ex_d2 : dvar Z := mkDv 2 true 1 2 1 5%Z.
Definition ex_d3 : dvar Z := mkDv 3 false (-1) (-1) 1 1%Z.
Definition ex_J (a : Z) : mat Z := fun i j => (a + 2 * Z.of_nat i - 3 * Z.of_nat j)%Z.
Definition ex_evs : list (@event Z) :=
  [EAdd ex_d2 2 (ex_J 4); EApply (FMat 2 2 (ex_J 1)); EAdd ex_d1 2 (ex_J 2); EApply (FScal 5%Z);
   EAddId ex_d1; EEnd; EAdd ex_d3 2 (ex_J 9); EEnd; EAdd ex_d1 2 (ex_J 7)].
Definition ex_cs : list (@contribution Z) :=
  [(ex_d2, mmul 2 (prod_mat 2 []) (ex_J 4));
   (ex_d1, mmul 2 (prod_mat 2 [FMat 2 2 (ex_J 1)]) (ex_J 2));
   (ex_d1, prod_mat 2 [FScal 5%Z; FMat 2 2 (ex_J 1)]);
   (ex_d3, mmul 2 (prod_mat 2 [FMat 2 2 (ex_J 1)]) (ex_J 9));
   (ex_d1, mmul 2 (prod_mat 2 []) (ex_J 7))].

Example C03_case_run : cruns 2 2 [] ex_evs ex_cs [].
Proof. exact ltac:(unfold ex_evs, ex_cs; repeat constructor). Qed.
Example C03_case_wf : wf_dvs (event_dvs ex_evs) /\ wf_cols 3 (event_dvs ex_evs).
Proof.
  exact ltac:(unfold wf_dvs, wf_cols; cbn [event_dvs flat_map ex_evs app]; repeat split; intros;
    cbn [In] in *; repeat match goal with H : _ \/ _ |- _ => destruct H | H : False |- _ => destruct H end;
    subst; cbn in *; try discriminate; try congruence; try lia; auto).
Qed.
Definition dump (n c : nat) (M : mat Z) : list (list Z) := map (fun i => map (M i) (seq 0 c)) (seq 0 n).
Example C03_case_value :
  (do c <- jc_run _ sp_addJ 2 (sp_init 2) (map cop_of ex_evs);
   Ok (map (fun e => (dv_id (fst e), dump 2 (d_cols (snd e)) (d_at (snd e)))) (jc_store c)))
  = Ok [(1, dump 2 2 (total ex_cs ex_d1)); (2, dump 2 1 (total ex_cs ex_d2))]
  /\ dump 2 2 (total ex_cs ex_d1) = [[6; -9]; [30; 3]]%Z.
Proof. vm_compute. split; reflexivity. Qed.
Example C04_case :
  (do c <- jc_run _ sp_addJ 2 (sp_init 2) (map cop_of ex_evs);
   do c' <- jc_run _ de_addJ 2 (de_init 2 3) (map cop_of ex_evs);
   Ok (dump 2 3 (sp_asDense [2;3] (jc_store c)), dump 2 3 (de_mat (jc_store c'))))
  = Ok ([[6; -9; 4]; [30; 3; 6]], [[6; -9; 4]; [30; 3; 6]])%Z.
Proof. vm_compute. reflexivity. Qed.

Definition ex_evs2 : list (@event Z) := [EAdd ex_d2 2 (ex_J 1)].
Example C05_case :
  (do c1 <- jc_run _ sp_addJ 2 (sp_init 2) (map cop_of ex_evs);
   do c2 <- jc_run _ sp_addJ 2 (sp_init 2) (map cop_of ex_evs2);
   do m <- sp_merge 2 2 (Some (mkD 2 2 (ex_J 3))) (jc_store c1) (jc_store c2);
   Ok (map (fun e => (dv_id (fst e), dump 2 (d_cols (snd e)) (d_at (snd e)))) m))
  = Ok [(1, [[6; -9]; [30; 3]]%Z); (2, [[7]; [17]]%Z)].
Proof. vm_compute. reflexivity. Qed.

Definition ex_term1 : @eterm Z := mkET 2 ex_evs ex_cs (fun i => Z.of_nat i + 1)%Z (ex_J 2) 2%Z.
Definition ex_term2 : @eterm Z := mkET 1 [EAdd ex_d2 1 (ex_J 1)] [(ex_d2, mmul 1 (prod_mat 1 []) (ex_J 1))]
   (fun _ => 4%Z) (fun _ _ => 1%Z) 1%Z.
Example C06_case_wf : forall t, In t [ex_term1; ex_term2] -> wf_eterm 2 [ex_d1; ex_d2; ex_d3] t.
Proof.
  exact ltac:(intros t [<-|[<-|[]]]; (split; [reflexivity|split; [|eexists; cbn; repeat constructor]]);
   intros d Hd; cbn in *; intuition).
Qed.
Example C06_case_value :
  (do Hr <- buildSystem (fun b => nth b [0;2] 0) 2 (map code_of [ex_term1; ex_term2]);
   Ok (dump 2 1 (fst Hr 0 1), dump 2 1 (fst Hr 1 0), map (snd Hr) [0;1;2]))
  = Ok (map (fun i => [15 * (JtWJ ex_term1 ex_d1 ex_d2 i 0 + JtWJ ex_term2 ex_d1 ex_d2 i 0)]%Z) [0;1],
        [[0];[0]]%Z,
        [ -3 * JtWe ex_term1 ex_d1 0; -3 * JtWe ex_term1 ex_d1 1;
          -5 * (JtWe ex_term1 ex_d2 0 + JtWe ex_term2 ex_d2 0)]%Z)
  /\ JtWJ ex_term1 ex_d1 ex_d2 0 0 = 17088%Z.
Proof. vm_compute. split; reflexivity. Qed.
