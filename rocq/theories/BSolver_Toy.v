(** * Block linear solvers: a library for two matrices, a concrete history, and what goes wrong *)
From Coq Require Import Arith Lia List ZArith Bool Sorting.Sorted Sorting.Permutation.
From Verif Require Import Lib_Ring Lib_Res CCM_Model SBM_Model SBM_Spec SBM_Proofs SBM_Proofs2 Cov_Model Cov_Spec Cov_Toy BSolver_Model BSolver_Spec BSolver_Proofs BSolver_Proofs2 BSolver_Proofs3.
From Verif Require CCM_Spec.
Import ListNotations.

(** ** a library that recognises the matrix cA of Cov_Toy and the 3 x 3 identity *)
Section Read.
  Context {K : Type} {R : CRing K}.
  (* entry (r, c) of compressed columns *)
  Definition entry (p i : list nat) (x : list K) (r c : nat) : K :=
    match List.find (fun q => nth q i 0 =? r) (seq (nth c p 0) (nth (c + 1) p 0 - nth c p 0)) with Some q => nth q x k0 | None => k0 end.
  Lemma entry_ok : forall n (A : mat K) p i x r c, is_ccs n n A (p, i, x) -> r < n -> c < n -> entry p i x r c = A r c.
  Proof.
    intros n A p i x r c (W & S) Hr Hc. cbn [fst snd] in *. specialize (S r c Hr Hc). unfold entry.
    destruct (List.find _ _) as [q|] eqn:F.
    - apply List.find_some in F. destruct F as (F1 & F2). apply in_seq in F1. apply Nat.eqb_eq in F2. pose proof (CCM_Spec.wf_mono _ W c Hc) as Mo. unfold CCM_Spec.colptr, CCM_Spec.rowind in *. cbn in *.
      destruct S as [(q' & S1 & S2 & S3)|(S1 & S2)]; [|exfalso; apply (S1 q); [lia|auto]].
      assert (q = q'). { destruct (Nat.lt_trichotomy q q') as [Q|[Q|Q]]; auto; exfalso; [pose proof (CCM_Spec.wf_sorted _ W c q q' Hc) as T|pose proof (CCM_Spec.wf_sorted _ W c q' q Hc) as T]; unfold CCM_Spec.colptr, CCM_Spec.rowind in T; cbn in T; lia. }
      subst q'. apply nth_error_nth with (d := k0) in S3. auto.
    - destruct S as [(q' & S1 & S2 & S3)|(S1 & S2)]; auto. unfold CCM_Spec.colptr, CCM_Spec.rowind in *. cbn in *. exfalso. apply List.find_none with (x := q') in F; [|apply in_seq; lia]. apply Nat.eqb_neq in F. auto.
  Qed.
End Read.

Definition is_upper (A : mat Z) (p i : list nat) (x : list Z) : bool := forallb (fun c => forallb (fun r => Z.eqb (entry p i x r c) (A r c)) (seq 0 (S c))) [0; 1; 2].
Lemma is_upper_ok : forall (A M : mat Z) p i x, (forall r c, A r c = A c r) -> is_ccs 3 3 (triu M) (p, i, x) -> (is_upper A p i x = true <-> meq 3 3 (symm M) A).
Proof.
  intros A M p i x Sy C. unfold is_upper. rewrite forallb_forall. split.
  - intros H r c Hr Hc. assert (Q : forall r c, r <= c -> c < 3 -> M r c = A r c).
    { clear r c Hr Hc. intros r c Hr Hc. specialize (H c ltac:(destruct c as [|[|[|c]]]; cbn; lia || auto)). rewrite forallb_forall in H. specialize (H r ltac:(apply in_seq; lia)). apply Z.eqb_eq in H.
      rewrite (entry_ok 3 (triu M)) in H by (auto; lia). unfold triu in H. rewrite (proj2 (Nat.leb_le _ _)) in H by auto. auto. }
    unfold symm. destruct (Nat.leb_spec r c); [apply Q; auto|rewrite Q by lia; apply Sy].
  - intros H c Hc. rewrite forallb_forall. intros r Hr. apply in_seq in Hr. assert (c < 3) by (destruct Hc as [<-|[<-|[<-|[]]]]; lia). apply Z.eqb_eq. rewrite (entry_ok 3 (triu M)) by (auto; lia).
    unfold triu. rewrite (proj2 (Nat.leb_le _ _)) by lia. rewrite <- (H r c) by lia. unfold symm. rewrite (proj2 (Nat.leb_le _ _)) by lia. auto.
Qed.
(* the matrix cA as a table, so that it is symmetric everywhere *)
Definition tA : mat Z := rows_of [[10; 3; 6]; [3; 1; 2]; [6; 2; 5]]%Z.
Definition tId : mat Z := rows_of [[1; 0; 0]; [0; 1; 0]; [0; 0; 1]]%Z.
Lemma rows_sym : forall a b c d e f r s, rows_of [[a; b; c]; [b; d; e]; [c; e; f]] r s = rows_of [[a; b; c]; [b; d; e]; [c; e; f]] s r.
Proof. intros. unfold rows_of. destruct r as [|[|[|r]]], s as [|[|[|s]]]; cbn; auto; try (destruct r; auto); try (destruct s; auto). Qed.
Lemma tA_is : meq 3 3 tA cA. Proof. intros [|[|[|i]]] [|[|[|j]]] H1 H2; try reflexivity; lia. Qed.

Definition tsym : Type := (nat * list nat * list nat)%type.
Definition tfor (y : tsym) (n : nat) (p i : list nat) : Prop := y = (n, p, i).
Definition tanalyze (n : nat) (p i : list nat) : option tsym := Some (n, p, i).
Definition tanalyze_p (q : list nat) (n : nat) (p i : list nat) : option tsym := Some (n, p, i).
(* the blocks in reverse *)
Definition tamd (n : nat) (Ap Aii : list nat) : option (list nat) := Some (map (fun k => n - 1 - k) (seq 0 n)).
Definition tfactorize (y : tsym) (n : nat) (p i : list nat) (x : list Z) : outcome bool :=
  if negb (n =? 3) then NotPosDef else if is_upper tA p i x then Factor true else if is_upper tId p i x then Factor false else NotPosDef.
Definition tsolve (f : bool) (b : vec Z) : vec Z := if f then mvmul 3 cAi b else b.
Definition tchange (f : bool) : option (list nat * list nat * list nat * list Z) :=
  if f then Some ([1; 2; 0], cLp, cLi, cLx) else Some ([0; 1; 2], [0; 1; 2; 3], [0; 1; 2], [1; 1; 1]%Z).
Definition tpd (n : nat) (M : mat Z) : Prop := n = 3 /\ (meq 3 3 M tA \/ meq 3 3 M tId).
Lemma tid_factor : factor 3 [0; 1; 2; 3] [0; 1; 2] [1; 1; 1]%Z tId.
Proof.
  split; [|split].
  - constructor; cbn; auto.
    + intros [|[|[|c]]] H; cbn; lia.
    + intros [|[|[|c]]] p H; try lia; cbn; intros Hp; do 3 (destruct p as [|p]; [cbn in *; lia|]); cbn in *; lia.
    + intros [|[|[|c]]] p q H; try lia; cbn; intros H1 H2 H3; lia.
  - intros [|[|[|r]]] [|[|[|c]]] Hr Hc; try (cbn in *; lia);
      first [left; exists 0; split; [cbn; lia|split; reflexivity] | left; exists 1; split; [cbn; lia|split; reflexivity] | left; exists 2; split; [cbn; lia|split; reflexivity] |
             right; split; [|reflexivity]; cbn; intros p Hp; do 3 (destruct p as [|p]; [cbn in *; lia|]); cbn in *; lia].
  - intros [|[|[|c]]] H; cbn; lia.
Qed.
Lemma list3 : forall q : list nat, length q = 3 -> q = [nth 0 q 0; nth 1 q 0; nth 2 q 0].
Proof. intros [|a [|b [|c [|d q]]]] H; cbn in *; try lia. auto. Qed.
Lemma lib_good : cholmod_good tsym bool tanalyze tanalyze_p tamd tfactorize tsolve tchange self tpd tfor.
Proof.
  constructor.
  - intros n p i _. exists (n, p, i). split; reflexivity.
  - intros q n p i _ _. exists (n, p, i). split; reflexivity.
  - intros n Ap Aii _. eexists. split; [reflexivity|]. assert (N : forall k, k < n -> nth k (map (fun k => n - 1 - k) (seq 0 n)) 0 = n - 1 - k).
    { intros k Hk. rewrite (nth_indep _ 0 (n - 1 - 0)) by (rewrite map_length, seq_length; auto). rewrite (map_nth (fun k => n - 1 - k)), seq_nth by auto. auto. }
    split; [rewrite map_length, seq_length; auto|]. split; [intros k Hk; rewrite N by auto; lia|]. intros k j Hk Hj. rewrite !N by auto. lia.
  - intros y n p i x M _ C. unfold tfactorize. destruct (Nat.eqb_spec n 3) as [->|N]; [|intros (? & _); auto]. cbn [negb].
    assert (UA := is_upper_ok tA M p i x (rows_sym _ _ _ _ _ _) C). assert (UI := is_upper_ok tId M p i x (rows_sym _ _ _ _ _ _) C).
    destruct (is_upper tA p i x).
    + pose proof (proj1 UA eq_refl) as E. assert (E' : meq 3 3 (symm M) cA) by (intros r c Hr Hc; rewrite (E r c) by auto; apply tA_is; auto). cbn [tsolve tchange]. split.
      * intros b k Hk. transitivity (mvmul 3 cA (mvmul 3 cAi b) k); [unfold mvmul at 1 3; apply ksum_ext; intros j Hj; rewrite (E' k j) by auto; auto|]. rewrite <- mvmul_mmul. rewrite <- (mvmul_id 3 b k Hk). unfold mvmul. apply ksum_ext. intros j Hj. rewrite (cinverse k j) by auto. auto.
      * split; [|split].
        { split; auto. split; [intros [|[|[|k]]] Hk; cbn; lia|intros [|[|[|k]]] [|[|[|j]]] H1 H2; cbn; lia]. }
        { exists cAi. intros r c Hr Hc. rewrite <- (cinverse r c) by auto. unfold mmul. apply ksum_ext. intros j Hj. rewrite (E' r j) by auto. auto. }
        exists cL. split; [exact cfactor|]. split; [exact crecip|]. intros q (L & H). rewrite (list3 q L). pose proof (H 0 ltac:(lia)) as H0. pose proof (H 1 ltac:(lia)) as H1. pose proof (H 2 ltac:(lia)) as H2. cbn in H0, H1, H2.
        rewrite H0, H1, H2. intros r c Hr Hc. rewrite (E' r c) by auto. apply (cfactorises r c); auto.
    + destruct (is_upper tId p i x).
      * pose proof (proj1 UI eq_refl) as E. cbn [tsolve tchange]. assert (Q : forall b k, k < 3 -> mvmul 3 tId b k = b k) by (intros b k Hk; etransitivity; [|apply (mvmul_id 3 b k Hk)]; unfold mvmul; apply ksum_ext; intros j Hj; f_equal; destruct k as [|[|[|k]]], j as [|[|[|j]]]; try lia; reflexivity). split.
        { intros b k Hk. etransitivity; [|apply (Q b k Hk)]. unfold mvmul. apply ksum_ext; intros j Hj; rewrite (E k j) by auto; auto. }
        split; [|split].
        { split; auto. split; [intros [|[|[|k]]] Hk; cbn; lia|intros [|[|[|k]]] [|[|[|j]]] H1 H2; cbn; lia]. }
        { exists tId. intros r c Hr Hc. transitivity (mmul 3 tId tId r c); [unfold mmul; apply ksum_ext; intros j Hj; rewrite (E r j) by auto; auto|]. destruct r as [|[|[|r]]], c as [|[|[|c]]]; try lia; reflexivity. }
        exists tId. split; [exact tid_factor|]. split; [intros [|[|[|r]]] Hr; try reflexivity; lia|]. intros q (L & H). rewrite (list3 q L). pose proof (H 0 ltac:(lia)) as H0. pose proof (H 1 ltac:(lia)) as H1. pose proof (H 2 ltac:(lia)) as H2. cbn in H0, H1, H2.
        rewrite H0, H1, H2. intros r c Hr Hc. rewrite (E r c) by auto. destruct r as [|[|[|r]]], c as [|[|[|c]]]; try lia; reflexivity.
      * intros (_ & [P|P]); [apply UA in P|apply UI in P]; discriminate.
Qed.

(** ** matrices: blocks of 2 and 1; all upper blocks of cA; the identity, with and without its zero block *)
Definition mA : sbm Z := mkSbm clay clay [[(0, tA)]; [(0, fun i _ => tA i 2); (1, fun _ _ => tA 2 2)]] true.
Definition mId : sbm Z := mkSbm clay clay [[(0, tId)]; [(0, fun _ _ => 0%Z); (1, fun _ _ => 1%Z)]] true.
Definition mDiag : sbm Z := mkSbm clay clay [[(0, tId)]; [(1, fun _ _ => 1%Z)]] true.
Definition mZero : sbm Z := mkSbm clay clay [[(0, fun _ _ => 0%Z)]; [(1, fun _ _ => 0%Z)]] true.
Lemma wf_two : forall a b, StronglySorted lt (map fst a) -> StronglySorted lt (map fst b) -> Forall (fun e : nat * mat Z => fst e <= 0) a -> Forall (fun e : nat * mat Z => fst e <= 1) b ->
  proper (mkSbm clay clay [a; b] true).
Proof.
  intros a b Sa Sb Fa Fb. split; [|split; [reflexivity|split; [discriminate|split]]].
  - constructor; cbn [s_rbi s_cbi s_cols]; try apply clay_ok; auto.
    + intros [|[|[|c]]]; cbn [nth]; auto; constructor.
    + intros [|[|[|c]]] r B; cbn [nth]; intros H; [rewrite Forall_forall in Fa; specialize (Fa _ H)|rewrite Forall_forall in Fb; specialize (Fb _ H)|destruct H|destruct H]; cbn in *; lia.
  - intros [|[|k]] H; cbn in *; lia.
  - intros r c H. destruct (get _ r c) as [B|] eqn:E; [clear H|congruence]. unfold get in E. cbn [s_cols] in E. destruct c as [|[|c]]; cbn [nth] in E.
    + apply find_in in E; auto. rewrite Forall_forall in Fa. specialize (Fa _ E). cbn in Fa. lia.
    + apply find_in in E; auto. rewrite Forall_forall in Fb. specialize (Fb _ E). cbn in Fb. lia.
    + destruct c; discriminate.
Qed.
Ltac prop2 := apply wf_two; repeat constructor; cbn; lia.
Lemma mA_ok : proper mA. Proof. prop2. Qed.
Lemma mId_ok : proper mId. Proof. prop2. Qed.
Lemma mDiag_ok : proper mDiag. Proof. prop2. Qed.
Lemma mZero_ok : proper mZero. Proof. prop2. Qed.
Lemma fits3 : fits_int (dim mA). Proof. exact cfits. Qed.
Definition v0 : vec Z := fun _ => 7%Z.
Definition v1 : vec Z := fun k => nth k [1; 2; 3]%Z 0%Z.
Definition bl : list (nat -> Z) := [fun _ => 0%Z; fun _ => 0%Z].
(* one solver for a whole session: order by blocks, three requests with A, other values in the same pattern, init, then other patterns *)
Definition session : list (call Z) :=
  [SetOrder true; Solve mA v0 v1; Blocks mA (Some bl); Pattern mA [(0, 1); (1, 1)]; Solve mId v0 v1; Blocks mId None; Init; Solve mZero v0 v1; SetOrder false; Solve mDiag v0 v1].
Lemma session_obeys : obeys None session. Proof. repeat split. Qed.
Lemma session_calls : Forall call_ok session.
Proof.
  repeat (apply Forall_cons; [cbn [call_ok]|]); try exact I; try apply mA_ok; try apply mId_ok; try apply mZero_ok; try apply mDiag_ok; try constructor; try apply mA_ok; try apply mId_ok; try (split; [exact cfits|]); try reflexivity; auto.
  intros b [<-|[<-|[]]]; cbn; lia.
Qed.
Definition trun : list (call Z) -> res (list (answer Z)) := fun l => c_run tsym bool tanalyze tanalyze_p tamd tfactorize tsolve tchange self keep l (c_new tsym).
Definition brief (a : answer Z) : bool * list Z :=
  match a with
  | Done => (true, [])
  | Solved ok x => (ok, map x [0; 1; 2; 3])
  | GotBlocks ok (Some l) => (ok, concat (map (fun f => map f [0; 1; 2; 3]) l))
  | GotBlocks ok None => (ok, [])
  | GotPattern ok (Some s) => (ok, [blk s 0 1 0 0; blk s 0 1 1 0; blk s 1 1 0 0])
  | GotPattern ok None => (ok, [])
  end.
Lemma session_run : match trun session with Ok l => map brief l | _ => [] end =
  [(true, []); (true, [-5; 19; -1; 7]); (true, [1; -3; -3; 14; 1; 0; 0; 0]); (true, [0; -2; 1]); (true, [1; 2; 3; 7]); (true, [1; 0; 0; 1; 1; 0; 0; 0]); (true, []); (false, [7; 7; 7; 7]); (true, []); (true, [1; 2; 3; 7])]%Z.
Proof. vm_compute. reflexivity. Qed.
Lemma mDiag_pd : forall A, stands_for mDiag A -> tpd (dim mDiag) (symm A).
Proof.
  intros A St. split; [reflexivity|]. right. assert (S : forall p q, p < 3 -> q < 3 -> A p q = tId p q).
  { intros p q Hp Hq. specialize (St (p / 2) (q / 2) (p mod 2) (q mod 2)). destruct p as [|[|[|p]]], q as [|[|[|q]]]; try lia; cbn in St; rewrite St by lia; reflexivity. }
  intros p q Hp Hq. unfold symm. destruct (p <=? q); rewrite S by auto; auto. apply (rows_sym 1 0 0 1 0 1)%Z.
Qed.
(* more blocks than before, without init: beyond the end of the array of values *)
Lemma more_blocks : trun [Solve mDiag v0 v1; Solve mA v0 v1] = UB. Proof. vm_compute. reflexivity. Qed.
(* fewer blocks than before, without init: the new values in the old places *)
Lemma fewer_blocks : match trun [Solve mA v0 v1; Solve mDiag v0 v1] with Ok l => map brief l | _ => [] end = [(true, [-5; 19; -1; 7]); (false, [7; 7; 7; 7])]%Z.
Proof. vm_compute. reflexivity. Qed.

(** ** QR and dense *)
Definition is_full (A : mat Z) (p i : list nat) (x : list Z) : bool := forallb (fun c => forallb (fun r => Z.eqb (entry p i x r c) (A r c)) [0; 1; 2]) [0; 1; 2].
Definition tqsym (nr nc : nat) (p i : list nat) : option tsym := Some (nr, p, i).
Definition tqsolve (y : option tsym) (nr nc : nat) (p i : list nat) (x : list Z) (b : vec Z) : option (vec Z) :=
  if negb (nc =? 3) then None else if is_full tA p i x then Some (mvmul 3 cAi b) else if is_full tId p i x then Some b else None.
Lemma tA_solves : forall b, solves 3 tA b (mvmul 3 cAi b).
Proof.
  intros b k Hk. transitivity (mvmul 3 cA (mvmul 3 cAi b) k); [unfold mvmul at 1 3; apply ksum_ext; intros j Hj; rewrite (tA_is k j) by auto; auto|].
  rewrite <- mvmul_mmul. rewrite <- (mvmul_id 3 b k Hk). unfold mvmul. apply ksum_ext. intros j Hj. rewrite (cinverse k j) by auto. auto.
Qed.
Lemma tId_solves : forall b, solves 3 tId b b.
Proof. intros b k Hk. etransitivity; [|apply (mvmul_id 3 b k Hk)]; unfold mvmul; apply ksum_ext; intros j Hj; f_equal; destruct k as [|[|[|k]]], j as [|[|[|j]]]; try lia; reflexivity. Qed.
Lemma solves_ext : forall (A M : mat Z) b x, meq 3 3 M A -> solves 3 A b x -> solves 3 M b x.
Proof. intros A M b x E S k Hk. rewrite <- (S k Hk). unfold mvmul. apply ksum_ext. intros j Hj. rewrite (E k j) by auto. auto. Qed.
Lemma is_full_ok : forall (A M : mat Z) p i x, is_ccs 3 3 M (p, i, x) -> (is_full A p i x = true <-> meq 3 3 M A).
Proof.
  intros A M p i x C. unfold is_full. rewrite forallb_forall. split.
  - intros H r c Hr Hc. specialize (H c ltac:(destruct c as [|[|[|c]]]; cbn; lia || auto)). rewrite forallb_forall in H. specialize (H r ltac:(destruct r as [|[|[|r]]]; cbn; lia || auto)). apply Z.eqb_eq in H. rewrite (entry_ok 3 M) in H by auto. auto.
  - intros H c Hc. rewrite forallb_forall. intros r Hr. assert (c < 3) by (destruct Hc as [<-|[<-|[<-|[]]]]; lia). assert (r < 3) by (destruct Hr as [<-|[<-|[<-|[]]]]; lia). apply Z.eqb_eq. rewrite (entry_ok 3 M) by auto. auto.
Qed.
Lemma qlib_good : qr_good tsym tqsym tqsolve tfor tpd.
Proof.
  constructor.
  - intros n p i x M _. exists (n, p, i). split; reflexivity.
  - intros y n p i x M b _ C (-> & P). unfold tqsolve. cbn [Nat.eqb negb]. pose proof (is_full_ok tA M p i x C) as UA. pose proof (is_full_ok tId M p i x C) as UI.
    destruct (is_full tA p i x) eqn:EA; [exists (mvmul 3 cAi b); split; auto; apply (solves_ext tA); [apply UA; auto|apply tA_solves]|].
    destruct (is_full tId p i x) eqn:EI; [exists b; split; auto; apply (solves_ext tId); [apply UI; auto|apply tId_solves]|].
    exfalso. destruct P as [P|P]; [apply UA in P|apply UI in P]; discriminate.
Qed.
Definition qsession : list (qcall Z) := [QSolve mA v0 v1; QSolve mId v0 v1; QInit; QSolve mDiag v0 v1].
Lemma qsession_obeys : q_obeys None qsession. Proof. repeat split. Qed.
Lemma qsession_calls : Forall qcall_ok qsession.
Proof. unfold qsession. repeat (apply Forall_cons; [first [exact I|exact mA_ok|exact mId_ok|exact mDiag_ok]|]). apply Forall_nil. Qed.
Definition tqrun (l : list (qcall Z)) := q_run tsym tqsym tqsolve l (q_new tsym).
Lemma qsession_run : match tqrun qsession with Ok l => map (fun a => match a with Some (ok, x) => (ok, map x [0; 1; 2; 3]) | None => (true, []) end) l | _ => [] end =
  [(true, [-5; 19; -1; 7]); (true, [1; 2; 3; 7]); (true, []); (true, [1; 2; 3; 7])]%Z.
Proof. vm_compute. reflexivity. Qed.
Lemma q_more_blocks : exists x, tqrun [QSolve mDiag v0 v1; QSolve mA v0 v1] = Ok [x; Some (false, v0)].
Proof. eexists. vm_compute. reflexivity. Qed.

Definition tldlt (n : nat) (M : mat Z) (b : vec Z) : vec Z := if Z.eqb (M 0 0) 10 then mvmul 3 cAi b else b.
Lemma tldlt_good : ldlt_good tpd tldlt.
Proof.
  intros n M b (-> & [P|P]); unfold tldlt; rewrite (P 0 0) by lia; cbn [tA tId rows_of nth]; [apply (solves_ext tA); auto; apply tA_solves|apply (solves_ext tId); auto; apply tId_solves].
Qed.
Lemma tpd_ext : forall n M M', meq n n M M' -> tpd n M -> tpd n M'.
Proof. intros n M M' E (-> & [P|P]); (split; [reflexivity|]); [left|right]; intros i j Hi Hj; rewrite <- (E i j) by auto; auto. Qed.
Lemma mA_pd : forall A, stands_for mA A -> tpd (dim mA) (symm A).
Proof.
  intros A St. split; [reflexivity|]. left. assert (S : forall p q, p <= q -> q < 3 -> A p q = tA p q).
  { intros p q Hp Hq. specialize (St (p / 2) (q / 2) (p mod 2) (q mod 2)). destruct p as [|[|[|p]]], q as [|[|[|q]]]; try lia; cbn in St; rewrite St by lia; reflexivity. }
  intros p q Hp Hq. unfold symm. destruct (Nat.leb_spec p q); rewrite S by lia; auto. apply (rows_sym 10 3 6 1 2 5)%Z.
Qed.
Lemma dense_run : let r := d_solve tldlt mA v0 v1 in (fst r, map (snd r) [0; 1; 2; 3]) = (true, [-5; 19; -1; 7]%Z). Proof. vm_compute. reflexivity. Qed.
(* the zero matrix: no solution, and the dense solver reports success whatever the decomposition does *)
Lemma dense_singular : forall ldlt x, fst (d_solve ldlt mZero x v1) = true /\ forall A y, stands_for mZero A -> ~ solves (dim mZero) (symm A) v1 y.
Proof.
  intros ldlt x. split; [reflexivity|]. intros A y St S. specialize (S 0 ltac:(cbn; lia)). change (dim mZero) with 3 in S. unfold mvmul in S. cbn [ksum] in S.
  assert (Z : forall q, q < 3 -> A 0 q = 0%Z). { intros q Hq. specialize (St 0 (q / 2) 0 (q mod 2)). destruct q as [|[|[|q]]]; try lia; cbn in St; rewrite St by lia; reflexivity. }
  cbn [symm Nat.leb] in S. unfold symm in S. cbn [Nat.leb] in S. rewrite !Z in S by lia. cbn in S. discriminate.
Qed.
(* no block at all *)
Definition mNone : sbm Z := mkSbm [] [] [] true.
Section Any.
  Variables (Sym Fac : Type) (analyze : nat -> list nat -> list nat -> option Sym) (analyze_p : list nat -> nat -> list nat -> list nat -> option Sym)
    (amd : nat -> list nat -> list nat -> option (list nat)) (factorize : Sym -> nat -> list nat -> list nat -> list Z -> outcome Fac)
    (csolve : Fac -> vec Z -> vec Z) (change_factor : Fac -> option (list nat * list nat * list nat * list Z)) (recip : Z -> Z) (sort : list (nat * nat) -> list (nat * nat)).
  Lemma empty_undefined : forall x b, c_run Sym Fac analyze analyze_p amd factorize csolve change_factor recip sort [Solve mNone x b] (c_new Sym) = UB.
  Proof. reflexivity. Qed.
  Lemma failed_undefined : forall x b, (forall n p i, analyze n p i = None) -> c_run Sym Fac analyze analyze_p amd factorize csolve change_factor recip sort [Solve mA x b] (c_new Sym) = UB.
  Proof. intros x b H. cbn [c_run c_step c_solve bind]. unfold c_solve, c_prepare. cbn [c_sym c_new c_buf]. change (fillExt _ _ _ mA false buf_new) with (fillExt (fun m => fillCCS m true) (fun m => fillCCS_values m true) nonZeros mA false (@buf_new Z)).
    set (f := fillExt _ _ _ _ _ _). vm_compute in f. unfold f. cbn [bind]. unfold c_symbolic. cbn. rewrite H. reflexivity. Qed.
  Lemma failed_order : forall x b, (forall n p i, amd n p i = None) -> c_run Sym Fac analyze analyze_p amd factorize csolve change_factor recip sort [SetOrder true; Solve mA x b] (c_new Sym) = UB.
  Proof. intros x b H. cbn [c_run c_step c_solve bind]. unfold c_solve, c_prepare. cbn [c_sym c_new c_buf].
    cbn. rewrite H. reflexivity. Qed.
End Any.
