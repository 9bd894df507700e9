(** * Concrete searches in double precision: one design variable, search direction 1 *)
From Coq Require Import ZArith List Bool.
From Verif Require Import Lib_Res Lib_Float Lib_Num Optimizer2_Toy LineSearch_Model LineSearch_Spec.
Import ListNotations.
Open Scope Z_scope.

Section Poly.
  (* a polynomial with coefficients n/540, lowest degree first, and its derivative, evaluated by Horner's rule *)
  Fixpoint horner (c : list b64) (x : b64) : b64 := match c with [] => f0 | a :: r => fadd a (fmul x (horner r x)) end.
  Definition coeffs (c : list Z) : list b64 := map (fun z => nlit z 540) c.
  Definition dcoeffs (c : list Z) : list b64 := map (fun p => nlit (fst p * snd p) 540) (tl (combine (map Z.of_nat (seq 0 (length c))) c)).
End Poly.

Definition lsstart (err grad : b64 -> b64) (x : b64) : lstate b64 b64 b64 := mkLS (grad x) f0 (err x) NaN (grad x) false false x.
Definition search12 (o : lsoptions b64) (err grad : b64 -> b64) (x : b64) :=
  lineSearchWolfe12 err grad (fun g => g) fadd o (lsstart err grad x).
Definition search1 (o : lsoptions b64) (err grad : b64 -> b64) (x : b64) :=
  lineSearchWolfe1 err grad (fun g => g) fadd o (lsstart err grad x).

Lemma lsstart_ready : forall err grad x, ready err grad (fun g => g) (lsstart err grad x).
Proof. intros. repeat split; auto. Qed.

Lemma search_check : forall (r : res (bool * lstate b64 b64 b64)) (p : bool -> lstate b64 b64 b64 -> bool),
  match r with Ok (b, l) => p b l | _ => false end = true -> exists b l, r = Ok (b, l) /\ p b l = true.
Proof. intros [[b l]| |] p H; try discriminate. eauto. Qed.

(* p(0)=0, p'(0)=-1, p(1)=-0.45, p'(1)=-0.6, p(1.5)=-0.5, p'(1.5)=0, p(2)=2 *)
Definition six : list Z := [0; -540; 7560; -21704; 24209; -11980; 2212].
Definition six_o : lsoptions b64 := mkLsOpt (nlit 4 10) (nlit 5 10) (lit 50) (nlit 1 100000000) (nlit 1 100000000000000) (lit 1) 1 10 10.
Definition six_e := horner (coeffs six). Definition six_d := horner (dcoeffs six).



(* the accepted step 1.5 has error about -0.5, sufficient decrease asks for at most -0.6 *)
Lemma six_run : exists l, search12 six_o six_e six_d f0 = Ok (true, l) /\
  flt (fadd (six_e f0) (fmul (fmul (c1 six_o) (l_step l)) (six_d f0))) (l_error l) = true.
Proof.
  destruct (search_check (search12 six_o six_e six_d f0)
    (fun b l => b && flt (fadd (six_e f0) (fmul (fmul (c1 six_o) (l_step l)) (six_d f0))) (l_error l))) as (b & l & R & H).
  { vm_compute. reflexivity. }
  destruct b; [|discriminate]. exists l. exact (conj R H).
Qed.

(* error -x: no step satisfies the curvature condition *)
Lemma slide_run : exists l, search12 default_ls (fun x => fopp x) (fun _ => fz (-1)) f0 = Ok (false, l) /\
  l_world l = fz 1024 /\ l_error l = fz (-1024).
Proof.
  destruct (search_check (search12 default_ls (fun x => fopp x) (fun _ => fz (-1)) f0)
    (fun b l => negb b && (same (l_world l) (fz 1024) && same (l_error l) (fz (-1024))))) as (b & l & R & H).
  { vm_compute. reflexivity. }
  destruct b; [discriminate|]. exists l. cbn [negb andb] in H. split_and H H1. exact (conj R (conj (same_eq _ _ H) (same_eq _ _ H1))).
Qed.

(* error (x-3)^2 from 0: the first trial step 1 is accepted *)
Definition par_e (x : b64) : b64 := fmul (fsub x (fz 3)) (fsub x (fz 3)).
Definition par_d (x : b64) : b64 := fmul (fz 2) (fsub x (fz 3)).
Lemma par_run : exists l, search1 default_ls par_e par_d f0 = Ok (true, l) /\ l_step l = fz 1 /\ l_error l = fz 4.
Proof.
  destruct (search_check (search1 default_ls par_e par_d f0)
    (fun b l => b && (same (l_step l) (fz 1) && same (l_error l) (fz 4)))) as (b & l & R & H).
  { vm_compute. reflexivity. }
  destruct b; [|discriminate]. exists l. cbn [andb] in H. split_and H H1. exact (conj R (conj (same_eq _ _ H) (same_eq _ _ H1))).
Qed.

(* Dcsrch with bounds [0.5, 50]: a high value at the first step brackets the minimum near 0; the next trial is 0 *)
Definition ds_of (r : res (dcsrch b64)) : dcsrch b64 :=
  match r with Ok s => s | _ => mkDs (mkDc f0 f0 f0 f0 f0 f0 f0 false) WARNING 0 f0 f0 f0 f0 f0 f0 f0 f0 f0 f0 end.
Lemma run_of : forall s : dcsrch b64, match s_status s with RUNNING => true | _ => false end = true -> s_status s = RUNNING.
Proof. intros s H. destruct (s_status s); [reflexivity|discriminate|discriminate]. Qed.
Definition half := fl 1 (-1).
Definition low_new := dcsrch_new (fz 1) f0 (fz (-1)) half (fz 50) (nlit 1 10000) (nlit 1 100000000000000) (nlit 9 10).
Lemma ds_ok : forall r, match r with Ok _ => true | _ => false end = true -> r = Ok (ds_of r).
Proof. intros [s| |] H; [reflexivity|discriminate|discriminate]. Qed.
Definition low0 := ds_of low_new.
Definition low1 := snd (updateStepLength low0 f0 (fz (-1))).
Definition low2 := snd (updateStepLength low1 (fz 10) (fz 20)).
Lemma low_ok : low_new = Ok low0.
Proof. apply ds_ok. vm_compute. reflexivity. Qed.
Lemma low_running : running low0 f0 [(stp (s_dc low1), fz 10); (f0, f0)] low2.
Proof.
  refine (run_step _ _ _ low1 _ (fz 20) _ (run_start _ _ (fz (-1))) _ eq_refl).
  apply run_of; vm_compute; reflexivity.
Qed.
Lemma low_facts : s_status low2 = RUNNING /\ brackt (s_dc low2) = true /\ stp (s_dc low2) = f0 /\ flt (stp (s_dc low2)) half = true.
Proof.
  assert (H : (match s_status low2 with RUNNING => true | _ => false end && brackt (s_dc low2) && same (stp (s_dc low2)) f0 &&
               flt (stp (s_dc low2)) half)%bool = true) by (vm_compute; reflexivity).
  split_and H H3. split_and H H2. split_and H H1.
  exact (conj (run_of low2 H) (conj H1 (conj (same_eq _ _ H2) H3))).
Qed.

(* Dcsrch with ftol 0.5: the value -0.1 at the first step is lower than the start but not low enough; the modified function makes it the
   second end of the interval and the next trial drops it *)
Definition mod_new := dcsrch_new (fz 1) f0 (fz (-1)) (nlit 1 100000000) (fz 50) half (nlit 1 100000000000000) (nlit 9 10).
Definition mod0 := ds_of mod_new.
Definition mod1 := snd (updateStepLength mod0 f0 (fz (-1))).
Definition mod2 := snd (updateStepLength mod1 (nlit (-1) 10) (fz 1)).
Definition mod3 := snd (updateStepLength mod2 (nlit 5 100) (fz 1)).
Lemma mod_ok : mod_new = Ok mod0.
Proof. apply ds_ok. vm_compute. reflexivity. Qed.
Definition mod_hist : list (b64 * b64) := [(stp (s_dc mod2), nlit 5 100); (stp (s_dc mod1), nlit (-1) 10); (f0, f0)].
Lemma mod_running : running mod0 f0 mod_hist mod3.
Proof.
  refine (run_step _ _ _ mod2 _ (fz 1) _ (run_step _ _ _ mod1 _ (fz 1) _ (run_start _ _ (fz (-1))) _ eq_refl) _ eq_refl);
    apply run_of; vm_compute; reflexivity.
Qed.
Lemma mod_facts : s_status mod3 = RUNNING /\ brackt (s_dc mod3) = true /\
  flt (nlit (-1) 10) (fx (s_dc mod3)) = true /\ flt (nlit (-1) 10) (fy (s_dc mod3)) = true.
Proof.
  assert (H : (match s_status mod3 with RUNNING => true | _ => false end && brackt (s_dc mod3) && flt (nlit (-1) 10) (fx (s_dc mod3)) &&
               flt (nlit (-1) 10) (fy (s_dc mod3)))%bool = true) by (vm_compute; reflexivity).
  split_and H H3. split_and H H2. split_and H H1. exact (conj (run_of mod3 H) (conj H1 (conj H2 H3))).
Qed.

(* a bracketed run in which every trial either decreases sufficiently or not at all: 10 at step 1, then -0.3 *)
Definition fair1 := snd (updateStepLength mod0 f0 (fz (-1))).
Definition fair2 := snd (updateStepLength fair1 (fz 10) (fz 20)).
Definition fair3 := snd (updateStepLength fair2 (nlit (-3) 10) (fz (-5))).
Definition fair_hist : list (b64 * b64) := [(stp (s_dc fair2), nlit (-3) 10); (stp (s_dc fair1), fz 10); (f0, f0)].
Lemma fair_running : running mod0 f0 fair_hist fair3.
Proof.
  refine (run_step _ _ _ fair2 _ (fz (-5)) _ (run_step _ _ _ fair1 _ (fz 20) _ (run_start _ _ (fz (-1))) _ eq_refl) _ eq_refl);
    apply run_of; vm_compute; reflexivity.
Qed.
Lemma fair_facts : s_status fair3 = RUNNING /\ brackt (s_dc fair3) = true /\ same (fx (s_dc fair3)) (nlit (-3) 10) = true /\
  flt f0 (fz 10) = true /\ fle (nlit (-3) 10) (fadd f0 (fmul (stp (s_dc fair2)) (s_gtest mod0))) = true.
Proof.
  assert (H : (match s_status fair3 with RUNNING => true | _ => false end && brackt (s_dc fair3) && same (fx (s_dc fair3)) (nlit (-3) 10) &&
     flt f0 (fz 10) && fle (nlit (-3) 10) (fadd f0 (fmul (stp (s_dc fair2)) (s_gtest mod0))))%bool = true) by (vm_compute; reflexivity).
  split_and H H4. split_and H H3. split_and H H2. split_and H H1. exact (conj (run_of fair3 H) (conj H1 (conj H2 (conj H3 H4)))).
Qed.

Lemma six_check : check_ls six_o = true. Proof. vm_compute. reflexivity. Qed.
Lemma default_check : check_ls (default_ls (N := b64)) = true. Proof. vm_compute. reflexivity. Qed.
Lemma default_bounds : fle (minStep default_ls) (maxStep default_ls) = true. Proof. vm_compute. reflexivity. Qed.

Lemma six_refutes : exists (errorOf gradOf : b64 -> b64) (o : lsoptions b64) (l l' : lstate b64 b64 b64),
  check_ls o = true /\ ready errorOf gradOf (fun g => g) l /\
  lineSearchWolfe12 errorOf gradOf (fun g => g) fadd o l = Ok (true, l') /\
  flt (fadd (l_error l) (fmul (fmul (c1 o) (l_step l')) (l_derror l))) (l_error l') = true.
Proof.
  exists six_e, six_d, six_o, (lsstart six_e six_d f0).
  destruct (search_check (lineSearchWolfe12 six_e six_d (fun g => g) fadd six_o (lsstart six_e six_d f0))
    (fun b l => b && flt (fadd (l_error (lsstart six_e six_d f0)) (fmul (fmul (c1 six_o) (l_step l)) (l_derror (lsstart six_e six_d f0)))) (l_error l)))
    as (b & l & R & H).
  { vm_compute. reflexivity. }
  destruct b; [|discriminate]. exists l. exact (conj six_check (conj (lsstart_ready six_e six_d f0) (conj R H))).
Qed.
Lemma slide_refutes : exists (errorOf gradOf : b64 -> b64) (l l' : lstate b64 b64 b64),
  check_ls (default_ls (N := b64)) = true /\ ready errorOf gradOf (fun g => g) l /\ l_world l = fz 0 /\
  lineSearchWolfe12 errorOf gradOf (fun g => g) fadd default_ls l = Ok (false, l') /\ l_world l' = fz 1024 /\ l_error l' = fz (-1024).
Proof.
  exists (fun x => fopp x), (fun _ => fz (-1)), (lsstart (fun x => fopp x) (fun _ => fz (-1)) f0).
  destruct (search_check (lineSearchWolfe12 (fun x => fopp x) (fun _ => fz (-1)) (fun g => g) fadd default_ls (lsstart (fun x => fopp x) (fun _ => fz (-1)) f0))
    (fun b l => negb b && (same (l_world l) (fz 1024) && same (l_error l) (fz (-1024))))) as (b & l & R & H).
  { vm_compute. reflexivity. }
  destruct b; [discriminate|]. exists l. cbn [negb andb] in H. split_and H H1.
  exact (conj default_check (conj (lsstart_ready _ _ _) (conj (same_eq f0 (fz 0) eq_refl) (conj R (conj (same_eq _ _ H) (same_eq _ _ H1)))))).
Qed.

(* a search that follows very small progress, options at their defaults *)
Lemma tiny_progress : let l := mkLS (par_d f0) f0 (par_e f0) (fadd (par_e f0) (fl 1 (-30))) (par_d f0) false false f0 in
  check_ls (default_ls : lsoptions b64) = true /\ ready par_e par_d (fun g => g) l /\ flt (l_derror l) f0 = true /\ flt (l_error l) (l_errorOld l) = true /\
  lineSearchWolfe12 par_e par_d (fun g => g) fadd default_ls l = Throw.
Proof. intros l. repeat split; vm_compute; reflexivity. Qed.
