(** * BlockCholeskyLinearSystemSolver: concrete sessions with the library of BSolver_Toy *)
From Coq Require Import Arith Lia List ZArith Bool Sorting.Sorted Sorting.Permutation.
From Verif Require Import Lib_Ring Lib_Res SBM_Model SBM_Spec Cov_Model Cov_Spec Cov_Toy BSolver_Model BSolver_Spec BSolver_Proofs3 BSolver_Toy
  LinSolve_Model LinSolve_Spec BlkSys_Model BlkSys_Spec BlkSys_Proofs.
Import ListNotations.
Local Open Scope Z_scope.

(* two design variables of dimension 2 and 1; no scaling *)
Definition one : nat -> Z := fun _ => 1.
Definition eye : mat Z := fun i j => if Nat.eqb i j then 1 else 0.
Definition term2 (d : nat) (J0 J1 : list (list Z)) (e : list Z) : lterm Z := mkLt d [(0%nat, rows_of J0); (1%nat, rows_of J1)] (fun k => nth k e 0) eye 1.
Definition tFull : lterm Z := term2 3 [[3; 1]; [1; 0]; [0; 0]] [[2]; [0]; [1]] [1; 0; -1].
Definition tIdent : lterm Z := term2 3 [[1; 0]; [0; 1]; [0; 0]] [[0]; [0]; [1]] [4; 5; 6].
Definition tFlat : lterm Z := term2 2 [[3; 1]; [1; 0]] [[2]; [0]] [1; 0].
Definition tNull : lterm Z := term2 1 [[0; 0]] [[0]] [3].
Definition only0 : lterm Z := mkLt 2 [(0%nat, eye)] (fun k => nth k [1; 2] 0) eye 1.
Definition only1 : lterm Z := mkLt 1 [(1%nat, eye)] (fun k => nth k [3] 0) eye 1.
Definition garbage : vec Z := fun _ => 9.
Definition last1 : vec Z := fun k => nth k [0; 0; 1] 0.
Definition story : list (op Z) :=
  [OInit clay false garbage; OBuild [tFull]; OSolve garbage; OCov [(0, 1); (1, 1)]%nat; OBuild [tIdent]; OSolve garbage;
   OInit clay true garbage; OBuild [tFlat]; OCond last1; OSolve garbage; OBuild [tNull]; OCond (fun _ => 0); OSolve garbage; OBuild [tFlat]; OCond last1; OSolve garbage; OBuild [tFlat]; OCov [(1, 1)%nat]].
Definition b0 : bc Z := mkBc (fresh clay clay) garbage (fun _ => 0) false.
Definition trunS (spqr : bool) (l : list (op Z)) : res (list (ans Z)) :=
  sys_run tsym bool tanalyze tanalyze_p tamd tfactorize tsolve tchange self keep tsym tqsym tqsolve one l (sys_new tsym tsym spqr b0).
Definition short (a : ans Z) : bool * list Z :=
  match a with ADone => (true, []) | ASolved ok x => (ok, map x [0; 1; 2]%nat) | ACov (Some s) => (true, [blk s 0 1 0 0; blk s 0 1 1 0; blk s 1 1 0 0]%nat) | ACov None => (false, []) end.
Lemma term2_ok : forall d J0 J1 e, lterm_ok clay (term2 d J0 J1 e).
Proof. intros. split; cbn; repeat constructor; cbn; lia. Qed.
Lemma term2_together : forall d J0 J1 e d' J0' J1' e', same_support [term2 d J0 J1 e] [term2 d' J0' J1' e'].
Proof. intros. intros r c. split; intros (t & [<-|[]] & H1 & H2); (eexists; split; [left; reflexivity|]; split; [exact H1|exact H2]). Qed.
Lemma clay_pos : positive clay. Proof. intros [|[|k]] H; cbn in *; lia. Qed.
Lemma story_ok : disciplined story (nothing b0).
Proof.
  unfold story. assert (L : layout_ok clay /\ clay <> [] /\ positive clay) by (split; [apply clay_ok|split; [discriminate|apply clay_pos]]).
  repeat (cbn [disciplined]; split;
    [cbn [allowed after g_l g_first g_use g_now g_c nothing];
     try (match goal with |- _ /\ _ /\ positive _ => exact L end);
     try exact Logic.I; try discriminate;
     try (split; [discriminate|split; [repeat constructor; cbn; lia|try exact Logic.I; apply term2_together]]);
     try (split; [discriminate|split; [exact cfits|]]; intros b Hb; repeat destruct Hb as [<-|Hb]; try destruct Hb; cbn; lia)
    |]).
  exact Logic.I.
Qed.
Lemma story_chol : match trunS false story with Ok l => map short l | _ => [] end =
  [(true, []); (true, []); (true, [0; -3; 1]); (true, [0; -2; 1]); (true, []); (true, [-4; -5; -6]);
   (true, []); (true, []); (true, []); (true, [0; -1; 0]); (true, []); (true, []); (false, [9; 9; 9]); (true, []); (true, []); (true, [0; -1; 0]); (true, []); (true, [0; 0; 1])].
Proof. vm_compute. reflexivity. Qed.
Definition qstory : list (op Z) := [OInit clay false garbage; OBuild [tFull]; OSolve garbage; OBuild [tIdent]; OSolve garbage; OInit clay true garbage; OBuild [tFlat]; OCond last1; OSolve garbage].
Lemma qstory_ok : disciplined qstory (nothing b0).
Proof.
  unfold qstory. assert (L : layout_ok clay /\ clay <> [] /\ positive clay) by (split; [apply clay_ok|split; [discriminate|apply clay_pos]]).
  repeat (cbn [disciplined]; split;
    [cbn [allowed after g_l g_first g_use g_now g_c nothing];
     try (match goal with |- _ /\ _ /\ positive _ => exact L end);
     try exact Logic.I; try discriminate;
     try (split; [discriminate|split; [repeat constructor; cbn; lia|try exact Logic.I; apply term2_together]])
    |]).
  exact Logic.I.
Qed.
Lemma qstory_run : match trunS true qstory with Ok l => map short l | _ => [] end =
  [(true, []); (true, []); (true, [0; -3; 1]); (true, []); (true, [-4; -5; -6]); (true, []); (true, []); (true, []); (true, [0; -1; 0])].
Proof. vm_compute. reflexivity. Qed.
(* the matrices of the two stories are good for the library *)
Lemma full_pd : tpd 3 (damped (after (OInit clay false garbage) (nothing b0)) [tFull] (J_of clay [tFull])).
Proof. split; [reflexivity|]. left. intros [|[|[|p]]] [|[|[|q]]] Hp Hq; try lia; vm_compute; reflexivity. Qed.
Lemma flat_pd : tpd 3 (damped (after (OCond last1) (after (OInit clay true garbage) (nothing b0))) [tFlat] (J_of clay [tFlat])).
Proof. split; [reflexivity|]. left. intros [|[|[|p]]] [|[|[|q]]] Hp Hq; try lia; vm_compute; reflexivity. Qed.
Lemma plain_cols : forall ts, scaled_cols clay one (J_of clay ts) (J_of clay ts).
Proof. intros ts r b i _ _. unfold one. cbn [kmul ZRing]. ring. Qed.
(* an error term that couples the two design variables at the second linearisation only *)
Lemma grown : trunS false [OInit clay false garbage; OBuild [only0; only1]; OSolve garbage; OBuild [tFull]; OSolve garbage] = UB.
Proof. vm_compute. reflexivity. Qed.
Lemma grown_terms : Forall (lterm_ok clay) [only0; only1] /\ Forall (lterm_ok clay) [tFull].
Proof. split; repeat constructor; cbn; lia. Qed.
Lemma grown_ok : match trunS false [OInit clay false garbage; OBuild [tFull]; OSolve garbage] with Ok l => map short l | _ => [] end = [(true, []); (true, []); (true, [0; -3; 1])].
Proof. vm_compute. reflexivity. Qed.
Section Any.
  Variables (Sym Fac : Type) (analyze : nat -> list nat -> list nat -> option Sym) (analyze_p : list nat -> nat -> list nat -> list nat -> option Sym)
    (amd : nat -> list nat -> list nat -> option (list nat)) (factorize : Sym -> nat -> list nat -> list nat -> list Z -> outcome Fac)
    (csolve : Fac -> vec Z -> vec Z) (change_factor : Fac -> option (list nat * list nat * list nat * list Z)) (recip : Z -> Z) (sort : list (nat * nat) -> list (nat * nat))
    (QSym : Type) (qr_symbolic : nat -> nat -> list nat -> list nat -> option QSym) (qr_solve : option QSym -> nat -> nat -> list nat -> list nat -> list Z -> vec Z -> option (vec Z)).
  Lemma qr_no_covariance : forall bi, sys_run Sym Fac analyze analyze_p amd factorize csolve change_factor recip sort QSym qr_symbolic qr_solve one
      [OInit clay false garbage; OBuild [tFull]; OCov bi] (sys_new Sym QSym true b0) = Ok [ADone; ADone; ACov None].
  Proof.
    intros bi. cbn [sys_run sys_step bind fst snd]. unfold sys_build. cbn [sys_init y_bc bc_H]. set (h := @bc_build Z ZRing one [tFull] _). assert (E : exists x, h = Ok x) by (eexists; vm_compute; reflexivity). destruct E as (x & ->). cbn [bind fst snd]. reflexivity.
  Qed.
End Any.
