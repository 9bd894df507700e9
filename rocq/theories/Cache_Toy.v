(** * Cached expressions: concrete histories *)
From Coq Require Import ZArith Arith List Bool Lia.
From Verif Require Import Lib_Ring Cache_Model Cache_Spec.
Import ListNotations.

(* scalars; op1: square, or square root of a square number that throws if negative; op2: product; a condition: is the first variable positive *)
Definition zv (x : Z) : vec Z := fun i => match i with O => x | _ => 0%Z end.
Definition zm (x : Z) : mat Z := fun i j => match i, j with O, O => x | _, _ => 0%Z end.
Definition at0 (x : vec Z) : Z := x 0.
Definition ZN : @nodes Z := {|
  op1 := bool; val1 := fun o x => if o then Some (zv (at0 x * at0 x)%Z) else if (at0 x <? 0)%Z then None else Some (zv (Z.sqrt (at0 x))); fac1 := fun o x => (1, zm (2 * at0 x)%Z);
  op2 := unit; val2 := fun _ x y => Some (zv (at0 x * at0 y)%Z); fac2 := fun _ x y => ((1, zm (at0 y)), (1, zm (at0 x)));
  leaf := fun _ _ => zm 1; plus := fun _ x dp => zv (at0 x + at0 dp)%Z; cond := unit; test := fun _ s => (0 <? at0 (s 0%nat))%Z |}.
Definition w0 : world ZN := init ZN (fun d => zv (Z.of_nat d + 3)) (fun _ => zv 0) (fun _ => true).

(* a schedule: the threads in turn, n times; a thread that is blocked or finished is passed over *)
Fixpoint pass (w : world ZN) (is : list nat) : list (label ZN) * world ZN :=
  match is with [] => ([], w) | i :: is => match step ZN w (LThread ZN i) with Some w' => let (ls, v) := pass w' is in (LThread ZN i :: ls, v) | None => pass w is end end.
Definition turns (w : world ZN) (n : nat) : list nat := concat (repeat (seq 0 (length (threads ZN w))) n).
Lemma pass_runs : forall is w, runs ZN w (fst (pass w is)) (snd (pass w is)).
Proof. induction is as [|i is IH]; intros w; cbn [pass fst snd]; [constructor|]. destruct (step ZN w (LThread ZN i)) as [w'|] eqn:E; auto. specialize (IH w'). destruct (pass w' is) as [ls v]. cbn in *. eapply runs_cons; eauto. exact I. Qed.
Lemma runs_app : forall w l1 w1 l2 w2, runs ZN w l1 w1 -> runs ZN w1 l2 w2 -> runs ZN w (l1 ++ l2) w2.
Proof. intros w l1 w1 l2 w2 H1 H2. induction H1; auto. eapply runs_cons; eauto. Qed.

(* a history: a label other than a thread's, followed by so many turns of the threads *)
Definition force (r : option (world ZN)) (w : world ZN) : world ZN := match r with Some w' => w' | None => w end.
Fixpoint play (w : world ZN) (h : list (label ZN * nat)) : list (label ZN) * world ZN :=
  match h with
  | [] => ([], w)
  | (l, n) :: h => let w1 := force (step ZN w l) w in let (ls, w2) := pass w1 (turns w1 n) in let (ls', w3) := play w2 h in (l :: ls ++ ls', w3)
  end.
Fixpoint can (w : world ZN) (h : list (label ZN * nat)) : Prop :=
  match h with [] => True | (l, n) :: h => enabled ZN w l /\ (match step ZN w l with Some _ => true | None => false end) = true /\ let w1 := force (step ZN w l) w in can (snd (pass w1 (turns w1 n))) h end.
Lemma play_runs : forall h w, can w h -> runs ZN w (fst (play w h)) (snd (play w h)).
Proof.
  induction h as [|[l n] h IH]; intros w; cbn [play can]; [constructor|]. intros (En & E & C). destruct (step ZN w l) as [w1|] eqn:ES; [|discriminate]. cbn [force] in *. pose proof (pass_runs (turns w1 n) w1) as P.
  destruct (pass w1 (turns w1 n)) as [ls w2]. cbn [snd fst] in *. specialize (IH w2 C). destruct (play w2 h) as [ls' w3]. cbn [snd fst] in *. eapply runs_cons; eauto. eapply runs_app; eauto.
Qed.
Definition show1 (p : @prog Z) : option (Z + (Z * Z)) + nat :=
  match p with PDone None => inl None | PDone (Some (inl v)) => inl (Some (inl (v 0))) | PDone (Some (inr j)) => inl (Some (inr (j 0 0 0, j 1 0 0)))
  | PFlag _ _ => inr 1 | PLock _ _ => inr 2 | PUnlock _ _ => inr 3 | PBegin _ _ => inr 4 | PEnd _ _ _ => inr 5 | PSet _ _ => inr 6 | PRead _ _ => inr 7 | PBad => inr 8 end.
Definition show (w : world ZN) : list (option (Z + (Z * Z)) + nat) := map (fun t => show1 (snd t)) (threads ZN w).

(* x0² cached, then (x0² · x1) cached: nested caches *)
Definition sq : cx ZN := CUn ZN true (CVar ZN 0).
Definition csq : cx ZN := CCache ZN 0 sq.
Definition pr : cx ZN := CBin ZN tt csq (CVar ZN 1).
Definition cpr : cx ZN := CCache ZN 1 pr.

(* histories without thread steps in them keep the conditions when the threads are scheduled *)
Lemma pass_threads : forall is w, Forall (fun l => exists i, l = LThread ZN i) (fst (pass w is)).
Proof. induction is as [|i is IH]; intros w; cbn [pass fst]; [constructor|]. destruct (step ZN w (LThread ZN i)) as [w'|]; auto. specialize (IH w'). destruct (pass w' is). cbn in *. constructor; eauto. Qed.
Lemma play_plain : forall h w, Forall (plain ZN) (map fst h) -> Forall (plain ZN) (fst (play w h)).
Proof.
  induction h as [|[l n] h IH]; intros w F; cbn [play map fst] in *; [constructor|]. inversion F as [|? ? F1 F2]; subst. pose proof (pass_threads (turns (force (step ZN w l) w) n) (force (step ZN w l) w)) as P.
  destruct (pass _ _) as [ls w2]. cbn [fst] in P. specialize (IH w2 F2). destruct (play w2 h) as [ls' w3]. cbn [fst] in *. constructor; auto. apply Forall_app. split; auto. eapply Forall_impl; [|exact P]. intros x (i & ->). exact I.
Qed.
Lemma disc_threads : forall ls b pend ls', Forall (fun l => exists i, l = LThread ZN i) ls -> disciplined ZN b pend ls' -> disciplined ZN b pend (ls ++ ls').
Proof. induction ls as [|l ls IH]; intros b pend ls' F D; auto. inversion F as [|? ? (i & ->) F2]; subst. cbn. auto. Qed.
Lemma play_disc : forall h w b pend, disciplined ZN b pend (map fst h) -> disciplined ZN b pend (fst (play w h)).
Proof.
  induction h as [|[l n] h IH]; intros w b pend D; cbn [play map fst] in *; auto. pose proof (pass_threads (turns (force (step ZN w l) w) n) (force (step ZN w l) w)) as P.
  destruct (pass _ _) as [ls w2]. cbn [fst] in P. pose proof (IH w2) as IH2. destruct (play w2 h) as [ls' w3]. cbn [fst] in *. assert (G : forall b pend, disciplined ZN b pend (map fst h) -> disciplined ZN b pend (ls ++ ls')) by (intros; apply disc_threads; auto).
  destruct l; cbn [disciplined] in *; auto. destruct (existsb (wants_J ZN) l); auto. destruct D; auto.
Qed.

(* two threads want values and one a Jacobian, interleaved; then an update, and a change of activity with the parameters set, and another round *)
Definition jobs : list (job ZN) := [JobV ZN cpr; JobV ZN csq; JobJ ZN cpr].
Definition hist1 : list (label ZN * nat) :=
  [(LCache ZN sq, 0); (LCache ZN pr, 0); (LSpawn ZN jobs, 40); (LUpdate ZN 0 (zv 2), 0); (LActive ZN 1 false, 0); (LSetParameters ZN 1 (zv 7), 0); (LSpawn ZN jobs, 40)].
Ltac cans := vm_compute; repeat (split || constructor).
Lemma hist1_runs : exists ls w, Forall (plain ZN) ls /\ disciplined ZN false [] ls /\ runs ZN w0 ls w /\ show w = [inl (Some (inl 175%Z)); inl (Some (inl 25%Z)); inl (Some (inr (70%Z, 0%Z)))] /\ flag ZN w (KJ, 1) = true.
Proof.
  exists (fst (play w0 hist1)), (snd (play w0 hist1)). split; [apply play_plain; cans|]. split; [apply play_disc; cans|]. split; [apply play_runs; cans|]. split; vm_compute; reflexivity.
Qed.
(* the root of a negative number is an exception in both threads, the mutex is released *)
Definition root : cx ZN := CUn ZN false (CVar ZN 0).
Definition hist2 : list (label ZN * nat) := [(LCache ZN root, 0); (LUpdate ZN 0 (zv (-9)), 0); (LSpawn ZN [JobV ZN (CCache ZN 0 root); JobV ZN (CCache ZN 0 root)], 40)].
Lemma hist2_runs : exists ls w, Forall (plain ZN) ls /\ runs ZN w0 ls w /\ show w = [inl None; inl None] /\ mutex ZN w (KV, 0) = None.
Proof. exists (fst (play w0 hist2)), (snd (play w0 hist2)). split; [apply play_plain; cans|]. split; [apply play_runs; cans|]. split; vm_compute; reflexivity. Qed.
(* one thread is about to check the flag again, with the mutex; the other one waits for it *)
Definition hist3 : list (label ZN * nat) := [(LCache ZN sq, 0); (LSpawn ZN [JobV ZN csq; JobV ZN csq], 2)].
Lemma hist3_runs : exists ls w, runs ZN w0 ls w /\ show w = [inr 1; inr 2] /\ mutex ZN w (KV, 0) = Some 0 /\ step ZN w (LThread ZN 1) = None /\ quiet ZN w = false.
Proof. exists (fst (play w0 hist3)), (snd (play w0 hist3)). split; [apply play_runs; cans|]. repeat split; vm_compute; reflexivity. Qed.
(* one thread is writing, the other one is still about to look at the flag; a thread about to read *)
Definition hist4 : list (label ZN * nat) := [(LCache ZN sq, 0); (LSpawn ZN [JobV ZN csq; JobV ZN csq], 0)].
Definition w4 (n : nat) : world ZN := snd (pass (snd (play w0 hist4)) (repeat 0 n)).
Lemma w4_runs : forall n, runs ZN w0 (fst (play w0 hist4) ++ fst (pass (snd (play w0 hist4)) (repeat 0 n))) (w4 n).
Proof. intros n. eapply runs_app; [apply play_runs; cans|apply pass_runs]. Qed.
Lemma w4_writes : exists ls w q x, runs ZN w0 ls w /\ nth_error (threads ZN w) 0 = Some (q, x) /\ writes x (KV, 0).
Proof. eexists _, (w4 3), _, _. split; [apply w4_runs|]. split; [vm_compute; reflexivity|]. reflexivity. Qed.
Lemma w4_reads : exists ls w q x, runs ZN w0 ls w /\ nth_error (threads ZN w) 0 = Some (q, x) /\ reads x (KV, 0).
Proof. eexists _, (w4 7), _, _. split; [apply w4_runs|]. split; [vm_compute; reflexivity|]. reflexivity. Qed.
(* one thread writes the flag while the other one reads it without the mutex *)
Lemma flag_race : exists ls w c q q' k k', runs ZN w0 ls w /\ nth_error (threads ZN w) 0 = Some (q, PSet c k) /\ nth_error (threads ZN w) 1 = Some (q', PFlag c k') /\ mutex ZN w c <> Some 1.
Proof. eexists _, (w4 5), (KV, 0), _, _, _, _. split; [apply w4_runs|]. split; [vm_compute; reflexivity|]. split; [vm_compute; reflexivity|]. vm_compute. discriminate. Qed.

(** ** Where the cached answer is a stale one *)
Definition res0 (w : world ZN) : option (@datum Z) := match threads ZN w with (_, PDone r) :: _ => r | _ => None end.
Ltac stale h := eexists (fst (play w0 h)), (snd (play w0 h)), _, (res0 (snd (play w0 h))); split; [try (apply play_plain; cans)|split; [apply play_runs; cans|split; [vm_compute; reflexivity|let H := fresh in intros H; apply (f_equal (fun r => show1 (PDone r))) in H; vm_compute in H; discriminate]]].
(* the activity changes after the Jacobian was cached *)
Definition hist5 : list (label ZN * nat) := [(LCache ZN sq, 0); (LSpawn ZN [JobJ ZN csq], 20); (LActive ZN 0 false, 0); (LSpawn ZN [JobJ ZN csq], 20)].
Lemma activity_stale : exists ls w e r, Forall (plain ZN) ls /\ runs ZN w0 ls w /\ nth_error (threads ZN w) 0 = Some (JobJ ZN e, PDone r) /\ r <> option_map inr (pjac ZN e (vals ZN w) (active ZN w)).
Proof. stale hist5. Qed.
(* a piecewise expression takes the second branch later *)
Definition pw : cx ZN := CIf ZN tt (CVar ZN 0) (CVar ZN 1).
Definition cpw : cx ZN := CCache ZN 0 pw.
Definition hist6 : list (label ZN * nat) := [(LCache ZN pw, 0); (LUpdate ZN 0 (zv (-5)), 0); (LSpawn ZN [JobV ZN cpw], 20); (LUpdate ZN 1 (zv 10), 0); (LSpawn ZN [JobV ZN cpw], 20)].
Lemma piecewise_stale : exists ls w e r, Forall (fun l => match l with LSet _ _ _ => False | _ => True end) ls /\ runs ZN w0 ls w /\ nth_error (threads ZN w) 0 = Some (JobV ZN e, PDone r) /\ r <> option_map inl (pval ZN e (vals ZN w)).
Proof. stale hist6. vm_compute. repeat constructor. Qed.
(* set() *)
Definition hist7 : list (label ZN * nat) := [(LCache ZN sq, 0); (LSpawn ZN [JobV ZN csq], 20); (LSet ZN 0 (zv 8), 0); (LSpawn ZN [JobV ZN csq], 20)].
Lemma set_stale : exists ls w e r, Forall (fun l => match l with LCache _ e => no_if ZN e | _ => True end) ls /\ runs ZN w0 ls w /\ nth_error (threads ZN w) 0 = Some (JobV ZN e, PDone r) /\ r <> option_map inl (pval ZN e (vals ZN w)).
Proof. stale hist7. vm_compute. repeat constructor. Qed.
