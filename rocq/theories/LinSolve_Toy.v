(** * Concrete systems for the linear solvers, over the integers *)
From Coq Require Import Arith Lia List ZArith Bool Sorting.Sorted.
From Verif Require Import Lib_Ring Lib_Res CCM_Model SBM_Model SBM_Spec SBM_Proofs SBM_Proofs2 LinSolve_Model LinSolve_Spec LinSolve_Proofs LinSolve_Proofs2.
From Verif Require CCM_Spec CCM_Proofs.
Import ListNotations.
Local Open Scope Z_scope.

Definition vz (v : list Z) : vec Z := fun i => nth i v 0.
Definition mz (m : list (list Z)) : mat Z := fun i j => nth j (nth i m []) 0.
(* a solver that checks its answers: correct whatever the guess *)
Definition agree (n : nat) (M : mat Z) (x b : vec Z) : bool := forallb (fun p => mvmul n M x p =? b p) (seq 0 n).
Lemma agree_ok : forall n M x b, agree n M x b = true -> solves_eq n M x b.
Proof. intros n M x b H p Hp. unfold agree in H. rewrite forallb_forall in H. apply Z.eqb_eq. apply H. apply in_seq. lia. Qed.
Definition bsolveZ (guess : vec Z -> mat Z -> vec Z) (H : sbm Z) (b : vec Z) : option (vec Z) :=
  let n := total (s_rbi H) in let M := symm (SBM_Model.toDense H) in let x := guess b M in if agree n M x b then Some x else None.
Lemma bsolveZ_ok : forall guess, symmetric_solver (bsolveZ guess).
Proof.
  intros guess H l S b x (W & St & Er & Ec & B) Sy E. unfold bsolveZ in E. rewrite Er in E. destruct (agree _ _ _ _) eqn:A in E; [|discriminate]. injection E as <-.
  pose proof (agree_ok _ _ _ _ A) as Q. revert Q. apply solves_ext; auto. pose proof (stands_toDense H W) as T.
  assert (Lo : layout_ok l) by (rewrite <- Er; apply (SBM_Spec.wf_rows _ W)).
  assert (U : forall p q, (p < total l)%nat -> (q < total l)%nat -> (p <= q)%nat -> SBM_Model.toDense H p q = S p q).
  { intros p q Hp Hq L. rewrite total_base in Hp, Hq. destruct (tile_exists l p (length l) Lo (le_n _) Hp) as (br & i & H1 & H2 & ->). destruct (tile_exists l q (length l) Lo (le_n _) Hq) as (bc & j & H3 & H4 & ->).
    specialize (T br bc i j). rewrite Er, Ec in T. rewrite T, B by auto. destruct (Nat.leb_spec br bc) as [L2|L2]; auto. exfalso.
    pose proof (base_mono l (Datatypes.S bc) br Lo ltac:(lia) ltac:(lia)) as Mo. rewrite base_S in Mo by auto. lia. }
  intros p q Hp Hq. unfold symm. destruct (Nat.leb_spec p q) as [L|L]; [apply U; auto|]. rewrite (Sy p q) by auto. apply U; auto. lia.
Qed.
Definition csolveZ (guess : vec Z -> vec Z) (m : ccm Z) (b : vec Z) : option (vec Z) :=
  match CCM_Model.toDense 0 m with Ok D => let x := guess b in if agree (c_rows m) (mmul (c_cols m) D (mtr D)) x b then Some x else None | _ => None end.
Lemma csolveZ_ok : forall guess, aat_solver (csolveZ guess).
Proof.
  intros guess m A b x W St E. unfold csolveZ in E. destruct (CCM_Proofs.toDense_ok (0 : Z) m A W St) as (D & Ed & V). rewrite Ed in E. cbv zeta in E. destruct (agree _ _ _ _) eqn:Q in E; [|discriminate]. injection E as <-.
  pose proof (agree_ok _ _ _ _ Q) as T. revert T. apply solves_ext; auto. intros p q Hp Hq. unfold mmul, mtr. apply ksum_ext. intros k Hk. rewrite !V by auto. auto.
Qed.
Definition qrZ (guess : vec Z -> vec Z) (rows cols : nat) (A : mat Z) (b : vec Z) : option (vec Z) :=
  let x := guess b in if agree cols (mmul rows (mtr A) A) x (mvmul rows (mtr A) b) then Some x else None.
Lemma qrZ_ok : forall guess rows cols A b y, qrZ guess rows cols A b = Some y -> least_squares rows cols A b y.
Proof. intros guess rows cols A b y E. unfold qrZ in E. cbv zeta in E. destruct (agree _ _ _ _) eqn:Q in E; [|discriminate]. injection E as <-. apply agree_ok. exact Q. Qed.

(** two design variables and two error terms: J = [1 1; 0 1; 0 2], e = (-1, 4, 3) *)
Definition lay2 : list nat := [1; 2]%nat.
Definition t1 : lterm Z := mkLt 1 [(0%nat, mz [[1]]); (1%nat, mz [[1]])] (vz [-1]) (mz [[1]]) 1.
Definition t2 : lterm Z := mkLt 2 [(1%nat, mz [[2]; [1]])] (vz [3; 4]) (mz [[0; 1]; [1; 0]]) 1.
Definition ts2 : list (lterm Z) := [t1; t2].
Lemma lay2_ok : layout_ok lay2. Proof. intros [|[|b]] H; cbn in *; lia. Qed.
Lemma ts2_ok : Forall (lterm_ok lay2) ts2.
Proof. repeat constructor; cbn; auto. Qed.
Lemma J2 : map (fun r => map (J_of lay2 ts2 r) (seq 0 2)) (seq 0 3) = [[1; 1]; [0; 1]; [0; 2]] /\ map (e_of ts2) (seq 0 3) = [-1; 4; 3]. Proof. vm_compute. auto. Qed.
Lemma fresh_rep : forall l, layout_ok l -> represents (fresh l l : sbm Z) l l (fun _ _ => 0).
Proof. intros l Lo. destruct (fresh_good (K := Z) l l Lo Lo) as (G & N). apply good_represents; auto. intros. unfold blk. rewrite N. auto. Qed.
Lemma buildable2 : buildable lay2 ts2 (construct 0 0).
Proof. split; [exact lay2_ok|]. split; [discriminate|]. split; [exact ts2_ok|]. split; [cbn; lia|]. right. repeat constructor; discriminate. Qed.
(* the step, damped by c = (1, 2) *)
Definition sol2 : vec Z := vz [1; -1].
Definition first {A B C} (d : B) (f : A -> res (C * option B)) (a : A) : B := match f a with Ok (_, Some x) => x | _ => d end.

Definition H2 : sbm Z * vec Z := match bc_build (fun _ => 1) ts2 (fresh lay2 lay2) with Ok x => x | _ => (fresh lay2 lay2, fun _ => 0) end.
Definition gs2 (b : vec Z) (M : mat Z) : vec Z := sol2.
Lemma block_run : match bc_solve (bsolveZ gs2) (mkBc (fst H2) (snd H2) (vz [1; 2]) true) with Ok (_, Some x) => (x 0%nat, x 1%nat) = (1, -1) | _ => False end.
Proof. vm_compute. reflexivity. Qed.
Definition S2 : res (sc Z) := sc_build lay2 ts2 (eval_errors ts2 0 (fun _ => 0)) [1; 2] true (construct 0 0).
Lemma sparse_run : match S2 with Ok x => match sc_solve (csolveZ (fun _ => sol2)) x with Ok (_, Some y) => (y 0%nat, y 1%nat) = (1, -1) | _ => False end | _ => False end.
Proof. vm_compute. reflexivity. Qed.
Definition D2 : dq Z := mkDq (fun _ _ => 0) 3 2 (fun _ => 0) (fun _ => 0) (vz [1; 2]) (Some true).
Definition hqr2 (rows cols : nat) (A : mat Z) (b : vec Z) : vec Z := sol2.
Lemma hqr2_ok : solves_problem hqr2 (jrows ts2 + total lay2) (total lay2) (above_diag true (jrows ts2) (J_of lay2 ts2) (dq_c D2)) (above_zero (jrows ts2) (e_of ts2)).
Proof. intros A b _ _. apply agree_ok. vm_compute. reflexivity. Qed.
(* without damping the step solves [1 1; 1 6] x = (1, -9): x = (3, -2) *)
Lemma qr_run : match sq_build lay2 ts2 (eval_errors ts2 0 (fun _ => 0)) [1; 2] true (construct 0 0) with
  | Ok x => match sq_solve (qrZ (fun _ => vz [3; -2])) (fun _ _ _ => 1) true x with Ok (_, Some y) => (y 0%nat, y 1%nat) = (3, -2) | _ => False end | _ => False end.
Proof. vm_compute. reflexivity. Qed.

(** one design variable *)
Definition lay1 : list nat := [1]%nat.
Lemma lay1_ok : layout_ok lay1. Proof. intros [|b] H; cbn in *; lia. Qed.
Definition divide (b : vec Z) (M : mat Z) : vec Z := fun _ => b 0%nat / M 0%nat 0%nat.
Definition one (h : Z) : sbm Z := mkSbm lay1 lay1 [[(0%nat, mz [[h]])]] true.
Lemma one_wf : forall h, SBM_Spec.well_formed (one h).
Proof.
  intros h. constructor; cbn [one s_rbi s_cbi s_cols]; auto using lay1_ok.
  - intros [|[|c]]; cbn; repeat constructor.
  - intros [|[|c]] r B H; cbn in H; try tauto. destruct H as [[= <- <-]|[]]. cbn. lia.
Qed.
Lemma one_good : forall h, square_good (one h) lay1.
Proof. intros h. exists (SBM_Model.toDense (one h)). split; [apply one_wf|]. repeat split. apply stands_toDense. apply one_wf. Qed.
(* H = 1, c = 2, rhs = 35 *)
Definition b1 : bc Z := mkBc (one 1) (vz [35]) (vz [2]) true.
Definition val {A} (d : A) (x : res A) : A := match x with Ok a => a | _ => d end.
Lemma twice : match bc_solve (bsolveZ divide) b1 with
  | Ok (b2, Some x) => match bc_solve (bsolveZ divide) b2 with Ok (_, Some y) => (x 0%nat, y 0%nat, blk (bc_H b2) 0 0 0%nat 0%nat) = (7, 5, 3) | _ => False end | _ => False end.
Proof. vm_compute. reflexivity. Qed.
Lemma block_refuted : exists bsolve (b : bc Z) l b' x b'' x', symmetric_solver bsolve /\ square_good (bc_H b) l /\
  bc_solve bsolve b = Ok (b', Some x) /\ bc_solve bsolve b' = Ok (b'', Some x') /\ blk (bc_H b') 0 0 0%nat 0%nat <> blk (bc_H b) 0 0 0%nat 0%nat /\ x 0%nat <> x' 0%nat.
Proof.
  pose proof twice as T. destruct (bc_solve (bsolveZ divide) b1) as [[b2 [x|]]| |] eqn:E1; try tauto. destruct (bc_solve (bsolveZ divide) b2) as [[b3 [y|]]| |] eqn:E2; try tauto.
  exists (bsolveZ divide), b1, lay1, b2, x, b3, y. split; [apply bsolveZ_ok|]. split; [apply one_good|]. split; auto. split; auto. injection T as T1 T2 T3. rewrite T1, T2, T3. split; [vm_compute; discriminate|lia].
Qed.
Lemma cov_refuted : exists pattern (b b' : bc Z) l, square_good (bc_H b) l /\ bc_cov pattern b = Ok (b', None) /\ blk (bc_H b') 0 0 0%nat 0%nat <> blk (bc_H b) 0 0 0%nat 0%nat.
Proof.
  assert (T : match bc_cov (fun _ => None) b1 with Ok (b2, None) => blk (bc_H b2) 0 0 0%nat 0%nat = 5 | _ => False end) by (vm_compute; reflexivity).
  destruct (bc_cov (fun _ => None) b1) as [[b2 [x|]]| |] eqn:E1; try tauto. exists (fun _ => None), b1, b2, lay1. split; [apply one_good|]. split; auto. rewrite T. vm_compute. discriminate.
Qed.

(** scaling *)
Definition tsA : list (lterm Z) := [mkLt 1 [(0%nat, mz [[1]])] (vz [-2]) (mz [[1]]) 1].
Lemma tsA_ok : Forall (lterm_ok lay1) tsA. Proof. repeat constructor; cbn; auto. Qed.
Lemma buildableA : buildable lay1 tsA (construct 0 0).
Proof. split; [exact lay1_ok|]. split; [discriminate|]. split; [exact tsA_ok|]. split; [cbn; lia|]. right. repeat constructor; discriminate. Qed.
Definition half (b : vec Z) : vec Z := fun _ => b 0%nat.
Lemma scaling_refuted : exists bsolve csolve l ts (s : nat -> Z) e H rhs x b' dx x' dx', symmetric_solver bsolve /\ aat_solver csolve /\ Forall (lterm_ok l) ts /\
  bc_build s ts (fresh l l) = Ok (H, rhs) /\ bc_solve bsolve (mkBc H rhs (fun _ => 0) false) = Ok (b', Some dx) /\
  sc_build l ts (eval_errors ts 0 e) [] false (construct 0 0) = Ok x /\ sc_solve csolve x = Ok (x', Some dx') /\
  (forall p, (p < jrows ts)%nat -> J_of l ts p 0 * (s 0%nat * dx 0%nat) + e_of ts p = 0) /\ ~ (forall p, (p < jrows ts)%nat -> J_of l ts p 0 * (s 0%nat * dx' 0%nat) + e_of ts p = 0).
Proof.
  assert (T : match bc_build (fun _ => 2) tsA (fresh lay1 lay1) with Ok (H, rhs) => match bc_solve (bsolveZ divide) (mkBc H rhs (fun _ => 0) false) with Ok (_, Some dx) => dx 0%nat = 1 | _ => False end | _ => False end) by (vm_compute; reflexivity).
  assert (T' : match sc_build lay1 tsA (eval_errors tsA 0 (fun _ => 0)) [] false (construct 0 0) with Ok x => match sc_solve (csolveZ half) x with Ok (_, Some dx) => dx 0%nat = 2 | _ => False end | _ => False end) by (vm_compute; reflexivity).
  destruct (bc_build (fun _ => 2) tsA (fresh lay1 lay1)) as [[H rhs]| |] eqn:E1; try tauto. destruct (bc_solve _ _) as [[b2 [dx|]]| |] eqn:E2 in T; try tauto.
  destruct (sc_build lay1 tsA _ _ _ _) as [x| |] eqn:E3 in T'; try tauto. destruct (sc_solve _ _) as [[x' [dx'|]]| |] eqn:E4 in T'; try tauto.
  exists (bsolveZ divide), (csolveZ half), lay1, tsA, (fun _ => 2), (fun _ => 0), H, rhs, x, b2, dx, x', dx'. split; [apply bsolveZ_ok|]. split; [apply csolveZ_ok|]. split; [apply tsA_ok|].
  split; auto. split; auto. split; auto. split; auto. rewrite T, T'. split.
  - intros [|p] Hp; [reflexivity|cbn in Hp; lia].
  - intros Q. specialize (Q 0%nat). assert (L : (0 < jrows tsA)%nat) by (cbn; lia). specialize (Q L). vm_compute in Q. discriminate.
Qed.
Lemma qr_refuted : exists qr colscale l ts (c : list Z) e x x' dx, (forall rows cols A b y, qr rows cols A b = Some y -> least_squares rows cols A b y) /\ buildable l ts (construct 0 0) /\ length c = total l /\
  sq_build l ts (eval_errors ts 0 e) c true (construct 0 0) = Ok x /\ sq_solve qr colscale false x = Ok (x', Some dx) /\
  ~ normal_equations (jrows ts) (total l) (J_of l ts) (e_of ts) (fun p => nth p c 0) dx.
Proof.
  assert (T' : match sq_build lay1 tsA (eval_errors tsA 0 (fun _ => 0)) [1] true (construct 0 0) with Ok x => match sq_solve (qrZ half) (fun _ _ _ => 1) false x with Ok (_, Some dx) => dx 0%nat = 2 | _ => False end | _ => False end) by (vm_compute; reflexivity).
  destruct (sq_build lay1 tsA _ _ _ _) as [x| |] eqn:E3 in T'; try tauto. destruct (sq_solve _ _ _ _) as [[x' [dx'|]]| |] eqn:E4 in T'; try tauto.
  exists (qrZ half), (fun _ _ _ => 1), lay1, tsA, [1], (fun _ => 0), x, x', dx'. split; [apply qrZ_ok|]. split; [exact buildableA|]. split; [reflexivity|]. split; auto. split; auto.
  intros N. specialize (N 0%nat). assert (L : (0 < total lay1)%nat) by (cbn; lia). specialize (N L).
  assert (Q : mvmul 1 (damped_normal 1 (J_of lay1 tsA) (fun p => nth p [1] 0)) dx' 0%nat = 2 * dx' 0%nat) by (cbn -[Z.mul Z.add]; lia).
  change (mvmul (total lay1) (damped_normal (jrows tsA) (J_of lay1 tsA) (fun p => nth p [1] 0)) dx' 0%nat) with (mvmul 1 (damped_normal 1 (J_of lay1 tsA) (fun p => nth p [1] 0)) dx' 0%nat) in N. rewrite Q, T' in N.
  vm_compute in N. discriminate.
Qed.

(** rhsJtJrhs *)
Definition tsB : list (lterm Z) := [mkLt 1 [(0%nat, mz [[1]]); (1%nat, mz [[1]])] (vz [1]) (mz [[1]]) 1].
Lemma tsB_ok : Forall (lterm_ok lay2) tsB. Proof. repeat constructor; cbn; auto. Qed.
Lemma rhs_refuted : exists l ts H rhs c use, layout_ok l /\ Forall (lterm_ok l) ts /\ bc_build (fun _ => 1) ts (fresh l l) = Ok (H, rhs) /\
  bc_rhsJtJrhs (mkBc H rhs c use) <> vdot (jrows ts) (mvmul (total l) (J_of l ts) rhs) (mvmul (total l) (J_of l ts) rhs).
Proof.
  assert (T : match bc_build (fun _ => 1) tsB (fresh lay2 lay2) with Ok (H, rhs) => (bc_rhsJtJrhs (mkBc H rhs (fun _ => 0) false), vdot 1 (mvmul 2 (J_of lay2 tsB) rhs) (mvmul 2 (J_of lay2 tsB) rhs)) = (3, 4) | _ => False end) by (vm_compute; reflexivity).
  destruct (bc_build (fun _ => 1) tsB (fresh lay2 lay2)) as [[H rhs]| |] eqn:E1; try tauto. exists lay2, tsB, H, rhs, (fun _ => 0), false. split; [exact lay2_ok|]. split; [exact tsB_ok|]. split; auto.
  pose proof (f_equal fst T) as T1. pose proof (f_equal snd T) as T2. cbn [fst snd] in T1, T2. rewrite T1. change (jrows tsB) with 1%nat. change (total lay2) with 2%nat. rewrite T2. lia.
Qed.
(* two design variables that share no error term *)
Definition tsC : list (lterm Z) := [mkLt 1 [(0%nat, mz [[3]])] (vz [1]) (mz [[1]]) 1; mkLt 1 [(1%nat, mz [[2]])] (vz [5]) (mz [[1]]) 1].
Lemma tsC_ok : Forall (lterm_ok lay2) tsC. Proof. repeat constructor; cbn; auto. Qed.
Lemma tsC_apart : forall b b' i j, (b < b')%nat -> (b' < length lay2)%nat -> (i < bsize lay2 b)%nat -> (j < bsize lay2 b')%nat -> mmul (jrows tsC) (mtr (J_of lay2 tsC)) (J_of lay2 tsC) (base lay2 b + i)%nat (base lay2 b' + j)%nat = 0.
Proof. intros [|[|b]] [|[|b']] [|i] [|j] H1 H2 H3 H4; try reflexivity; cbn in *; lia. Qed.
Lemma unscaled : forall l (J : mat Z), scaled_cols l (fun _ => 1) J J. Proof. intros l J r b i _ _. change (J r (base l b + i)%nat = J r (base l b + i)%nat * 1). lia. Qed.
Lemma sparse_469 : match S2 with Ok x => sc_rhsJtJrhs x = Ok 469 | _ => False end. Proof. vm_compute. reflexivity. Qed.
Lemma dense_469 : dq_rhsJtJrhs (dq_build lay2 ts2 (eval_errors ts2 0 (fun _ => 0)) D2) = 469. Proof. vm_compute. reflexivity. Qed.
Lemma sparse_case : buildable lay2 ts2 (construct 0 0) /\ aat_solver (csolveZ (fun _ => sol2)) /\
  match S2 with Ok x => match sc_solve (csolveZ (fun _ => sol2)) x with Ok (_, Some y) => (y 0%nat, y 1%nat) = (1, -1) | _ => False end | _ => False end.
Proof. split; [exact buildable2|]. split; [apply csolveZ_ok|]. exact sparse_run. Qed.
Lemma sparse_rhs_case : buildable lay2 ts2 (construct 0 0) /\ match S2 with Ok x => sc_rhsJtJrhs x = Ok 469 | _ => False end.
Proof. split; [exact buildable2|exact sparse_469]. Qed.
