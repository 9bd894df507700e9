(** * Python module: concrete cases and counterexamples *)
From Coq Require Import Arith Lia List ZArith Bool.
From Verif Require Import Lib_Ring Lib_Res SBM_Model SBM_Spec SBM_Toy PyB_Model PyB_Spec.
From Verif Require Optimizer2_Model Callback_Model.
Import ListNotations.

(* put two blocks, try a third one outside, clear, put one again *)
Definition session : list (mop Z) := [OSet 0 1 2 1 B01; OSet 1 1 1 1 B11; OSet 2 0 5 5 B00; OClear false; OSet 1 1 1 1 B11]%Z.
Lemma session_fits : Forall (fits lay lay) session.
Proof. repeat constructor; intros; try discriminate; unfold within in *; cbn in *; try lia. Qed.
Lemma session_answers : fst (mrun (py_new lay lay true) session) = [Ok tt; Ok tt; Throw; Ok tt; Ok tt].
Proof. reflexivity. Qed.
Lemma session_values : py_at (snd (mrun (py_new lay lay true) (firstn 2 session))) 1 2 = Ok 11%Z /\ py_at (snd (mrun (py_new lay lay true) session)) 1 2 = Ok 0%Z /\
  py_at (snd (mrun (py_new lay lay true) session)) 2 2 = Ok 7%Z.
Proof. repeat split; reflexivity. Qed.

(* a block of another size is accepted *)
Definition wrong : mop Z := OSet 1 1 2 3 B00.
Lemma wrong_size : exists (rbi cbi : list nat) (o : mop Z), layout_ok rbi /\ layout_ok cbi /\ answer rbi cbi o (Ok tt) /\ fst (mstep (py_new rbi cbi true) o) = Ok tt /\
  (let m := snd (mstep (py_new rbi cbi true) o) in
   py_toDense m = UB /\ py_toDenseSymmetric m = UB /\ exists B, py_getBlock m 1 1 = Ok (2, 3, B) /\ (bsize rbi 1, bsize cbi 1) = (1, 1)).
Proof.
  exists lay, lay, wrong. split; [apply lay_ok|]. split; [apply lay_ok|]. split; [|split; [reflexivity|]].
  - cbn. split; [auto|]. intros N. exfalso. apply N. unfold within. cbn. lia.
  - cbv zeta. split; [reflexivity|]. split; [reflexivity|]. exists B00. split; reflexivity.
Qed.
(* and a block that is too small makes element access undefined *)
Definition small : mop Z := OSet 0 0 1 1 B00.
Lemma too_small : fst (mstep (py_new lay lay true) small) = Ok tt /\ py_at (snd (mstep (py_new lay lay true) small)) 1 1 = UB /\ py_at (snd (mstep (py_new lay lay true) small)) 0 0 = Ok 1%Z.
Proof. repeat split; reflexivity. Qed.

Lemma no_storage : forall (K : Type) (R : CRing K) rbi cbi r c (B : dmat K), py_setBlock (py_new rbi cbi false) r c B = (Throw, py_new rbi cbi false).
Proof.
  intros K R rbi cbi r c B. unfold py_setBlock. destruct (py_in _ r c); auto. cbv zeta. cbn [py_new p_m s_storage].
  replace (get (mkSbm rbi cbi (repeat [] (length cbi)) false : sbm K) (Z.to_nat r) (Z.to_nat c)) with (@None (mat K)); auto.
  unfold get. cbn [s_cols]. destruct (Nat.lt_ge_cases (Z.to_nat c) (length cbi)); [rewrite nth_repeat|rewrite nth_overflow by (rewrite repeat_length; auto)]; auto.
Qed.
Lemma set_unchecked : exists (rbi cbi : list nat) c, layout_ok rbi /\ layout_ok cbi /\ ~ within cbi c /\ py_isBlockSet (py_new rbi cbi true : pmat Z) 0 c = UB.
Proof. exists lay, lay, 2%Z. split; [apply lay_ok|]. split; [apply lay_ok|]. split; [unfold within; cbn; lia|reflexivity]. Qed.

(** ** Callbacks *)
Import Callback_Model.
(* callback 7 for events 1 and 2 and 1 again, callback 8 for event 1, no callable, event 2 cleared, something that is not an event *)
Definition history : list cop := [CAdd true (Many [Some 1; Some 2; Some 1]) 7; CAdd true (One (Some 1)) 8; CAdd false (One (Some 1)) 9; CClear (Some 2); CAdd true (One None) 9].
Lemma history_clean : Forall clean history.
Proof. repeat constructor. intros [H|[H|[H|[]]]]; discriminate. Qed.
Lemma history_present : present 1 history = [7; 7; 8] /\ present 2 history = [].
Proof. split; reflexivity. Qed.
Lemma half_added : exists a c e, fst (py_add true a c empty_registry) = Throw /\ snd (py_add true a c empty_registry) e <> empty_registry e.
Proof. exists (Many [Some 1; None]), 7, 1. split; [reflexivity|discriminate]. Qed.
Lemma no_stop : exists (f : nat -> nat -> nat -> proceed * nat) h e w c, Forall clean h /\ In c (present e h) /\ (forall w, fst (f c e w) = FAIL) /\
  fst (fst (issueCallback (fun c => py_lambda (f c)) (snd (crun empty_registry h)) e w)) = CONTINUE /\
  fst (fst (issueCallback (fun c => FVerdict (f c)) (snd (crun empty_registry h)) e w)) = FAIL.
Proof.
  exists (fun c e w => (FAIL, S w)), history, 1, 0, 7. split; [apply history_clean|]. split; [left; auto|]. split; [auto|]. split; reflexivity.
Qed.

Lemma factor_ok : forall V T (s : sampler V T) v, py_read prop_factor s = Ok (sa_factor s) /\
  exists s', py_write prop_factor s v = Ok s' /\ py_read prop_factor s' = Ok v /\ sa_burnIn s' = sa_burnIn s /\ sa_rest s' = sa_rest s.
Proof. intros. split; [reflexivity|]. eexists. split; [reflexivity|]. auto. Qed.
Lemma burnIn_bad : forall V T (s : sampler V T) b, py_read prop_isBurnIn s = Throw /\ py_write prop_isBurnIn s b = Throw.
Proof. intros. split; reflexivity. Qed.
Lemma no_name : forall c, ~ In c py_status_values <-> c = Optimizer2_Model.MAX_ITERATIONS.
Proof. intros []; cbn; split; intros H; try discriminate; try (exfalso; apply H; tauto); auto. intros [X|[X|[X|[X|[X|[]]]]]]; discriminate. Qed.
