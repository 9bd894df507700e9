(** * Cached values after an evaluation (proofs only) *)
From Coq Require Import Arith Lia List ZArith Bool Reals Lra.
From Verif Require Import Lib_Ring Lib_Real Lib_Res MatrixStack_Model DesignVar_Base Jacobian_Model Scalar_Model Geo_Model Geo_Main Stale_Model Stale_Spec.
Import ListNotations.
Local Open Scope R_scope.

Definition toopt {A} (r : res A) : option A := match r with Ok a => Some a | _ => None end.
Definition lab : Type := bool * nat.
(* the members a node writes *)
Fixpoint sxl (e : sx) : list lab :=
  match e with XVar _ | XConst _ => [] | XUn _ a => sxl a | XBin _ a b | XAdd a b _ => sxl a ++ sxl b | XComp v _ => vxl v end
with vxl (v : vx) : list lab :=
  match v with
  | VxVar _ | VxConst _ _ | ExDir _ _ => []
  | VxStack l => sll l
  | VxAdd a b | ExCross a b | ExSub a b | ExElem a b => vxl a ++ vxl b
  | VxScale p e => vxl p ++ sxl e
  | ExRot n r p => (true, n) :: (false, n) :: rxl r ++ vxl p
  | ExMat n _ _ p => (true, n) :: (false, n) :: vxl p
  | ExSubC a _ | ExNeg a => vxl a
  | ExTrans t => txl t
  | ExPar r => rxl r
  | ExHom h => hxl h
  end
with sll (l : sl) : list lab := match l with XNil => [] | XCons a l' => sxl a ++ sll l' end
with rxl (r : rx) : list lab := match r with RxVar _ | RxConst _ => [] | RxMul n a b => (true, n) :: rxl a ++ rxl b | RxInv n a => (true, n) :: rxl a | RxOfT t => txl t | RxAxis _ e => sxl e end
with txl (t : tx) : list lab := match t with TxRT r p => rxl r ++ vxl p | TxR r => rxl r | TxT p => vxl p | TxMul n a b => (true, n) :: txl a ++ txl b | TxInv n a => (true, n) :: txl a | TxConst _ => [] end
with hxl (h : hx) : list lab := match h with HxPoint _ | HxConst _ => [] | HxOfE p => vxl p | HxMul n t h' => (true, n) :: (false, n) :: txl t ++ hxl h' end.

Section Fix.
  Variables (X : kinematics) (L : nat -> node) (s : state).
  Definition mval (n : nat) : option (mat R) :=
    match L n with
    | NV (ExRot _ r _) => toopt (rxval X r s) | NV (ExMat _ d _ _) => Some (m3 (s (dv_id d)))
    | NR (RxMul _ a _) => toopt (rxval X a s) | NR (RxInv _ a) => toopt (rxval X a s)
    | NT (TxMul _ a _) => toopt (txval X a s) | NT (TxInv _ a) => option_map (inv4 X) (toopt (txval X a s))
    | NH (HxMul _ t _) => toopt (txval X t s) | _ => None end.
  Definition vval (n : nat) : option (vec R) :=
    match L n with NV (ExRot _ _ p) => toopt (vxval X p s) | NV (ExMat _ _ _ p) => toopt (vxval X p s) | NH (HxMul _ _ h) => toopt (hxval X h s) | _ => None end.
  Definition okc (c : cst) (l : lab) : Prop := if fst l then exists A, mval (snd l) = Some A /\ cm c (snd l) = Some A else exists x, vval (snd l) = Some x /\ cv c (snd l) = Some x.
  Definition HT {A} (pre : list lab) (m : M A) (r : res A) (post : list lab) : Prop :=
    forall c, (forall l, In l pre -> okc c l) -> fst (m c) = r /\ (forall l, okc c l -> okc (snd (m c)) l) /\ (forall v, r = Ok v -> forall l, In l post -> okc (snd (m c)) l).

  Lemma h_lift : forall A (r : res A) pre, HT pre (lift r) r [].
  Proof. intros A r pre c _. split; auto. split; auto. intros v _ l []. Qed.
  Lemma h_ret : forall A (a : A) pre, HT pre (ret a) (Ok a) [].
  Proof. intros A a pre. apply (h_lift A (Ok a)). Qed.
  Lemma h_bnd : forall A B (m : M A) (f : A -> M B) r g pre l1 l2, HT pre m r l1 -> (forall x, r = Ok x -> HT (pre ++ l1) (f x) (g x) l2) -> HT pre (bnd m f) (do x <- r; g x) (l1 ++ l2).
  Proof.
    intros A B m f r g pre l1 l2 H1 H2 c Hp. destruct (H1 c Hp) as (E1 & P1 & Q1). unfold bnd. destruct (m c) as [r0 c1]. cbn [fst snd] in *. subst r0.
    destruct r as [a| |]; cbn [bind fst snd]; [|split; [auto|split; [auto|intros; discriminate]]..].
    destruct (H2 a eq_refl c1) as (E2 & P2 & Q2); [intros l Hl; apply in_app_or in Hl; destruct Hl; [apply P1, Hp; auto|apply (Q1 a); auto]|].
    split; auto. split; [intros; apply P2, P1; auto|]. intros v Hv l Hl. apply in_app_or in Hl. destruct Hl; [apply P2, (Q1 a); auto|apply (Q2 v); auto].
  Qed.
  Lemma h_weak : forall A (m : M A) r r' p p' q q', HT p m r q -> r = r' -> (forall l, In l p -> In l p') -> (forall l, In l q' -> In l q) -> HT p' m r' q'.
  Proof. intros A m r r' p p' q q' H <- Hp Hq c Hc. destruct (H c) as (E & P & Q); [intros; apply Hc, Hp; auto|]. split; auto. split; auto. intros v Hv l Hl. apply (Q v); auto. Qed.
  Lemma h_pre : forall A (m : M A) r p p' q, HT p m r q -> (forall l, In l p -> In l p') -> HT p' m r q.
  Proof. intros. eapply h_weak; eauto. Qed.
  Lemma h_setM : forall n A pre, mval n = Some A -> HT pre (setM n A) (Ok tt) [(true, n)].
  Proof.
    intros n A pre Hm c _. cbn [setM fst snd]. assert (K : okc {| cm := fun k => if (k =? n)%nat then Some A else cm c k; cv := cv c |} (true, n)) by (exists A; cbn; rewrite Nat.eqb_refl; auto).
    split; auto. split.
    - intros [[|] k] H; auto. destruct (Nat.eq_dec k n) as [->|N]; auto. destruct H as (A' & H1 & H2). exists A'. split; auto. cbn in *. destruct (Nat.eqb_spec k n); [contradiction|auto].
    - intros v _ l [<-|[]]. auto.
  Qed.
  Lemma h_setV : forall n A pre, vval n = Some A -> HT pre (setV n A) (Ok tt) [(false, n)].
  Proof.
    intros n A pre Hm c _. cbn [setV fst snd]. assert (K : okc {| cm := cm c; cv := fun k => if (k =? n)%nat then Some A else cv c k |} (false, n)) by (exists A; cbn; rewrite Nat.eqb_refl; auto).
    split; auto. split.
    - intros [[|] k] H; auto. destruct (Nat.eq_dec k n) as [->|N]; auto. destruct H as (A' & H1 & H2). exists A'. split; auto. cbn in *. destruct (Nat.eqb_spec k n); [contradiction|auto].
    - intros v _ l [<-|[]]. auto.
  Qed.
  Lemma h_getM : forall n A pre, mval n = Some A -> In (true, n) pre -> HT pre (getM n) (Ok A) [].
  Proof. intros n A pre Hm Hi c Hc. destruct (Hc _ Hi) as (A' & H1 & H2). cbn [fst snd] in *. unfold getM. cbn [fst snd]. rewrite H2. split; [congruence|]. split; auto. intros v _ l []. Qed.
  Lemma h_getV : forall n A pre, vval n = Some A -> In (false, n) pre -> HT pre (getV n) (Ok A) [].
  Proof. intros n A pre Hm Hi c Hc. destruct (Hc _ Hi) as (A' & H1 & H2). cbn [fst snd] in *. unfold getV. cbn [fst snd]. rewrite H2. split; [congruence|]. split; auto. intros v _ l []. Qed.

  Ltac mem := clear; cbn [sxl vxl sll rxl txl hxl app]; let l := fresh in let H := fresh in
    try (intros l H; cbn [sxl vxl sll rxl txl hxl app] in H; repeat (progress (repeat rewrite in_app_iff in H; cbn [In app] in H))); repeat (progress (repeat rewrite in_app_iff; cbn [In app])); tauto.
  Ltac vals := unfold mval, vval; repeat match goal with H : L _ = _ |- _ => rewrite H end; repeat match goal with H : _ = Ok _ |- _ => rewrite H end; reflexivity.
  Ltac one := match goal with
    | |- HT _ (lift _) _ _ => apply h_lift
    | |- HT _ (ret _) _ _ => apply h_ret
    | |- HT _ (setM _ _) _ _ => apply h_setM; vals
    | |- HT _ (setV _ _) _ _ => apply h_setV; vals
    | |- HT _ (getM _) _ _ => eapply h_getM; [vals|mem]
    | |- HT _ (getV _) _ _ => eapply h_getV; [vals|mem]
    | H : HT ?p ?m ?r ?q |- HT _ ?m _ _ => eapply h_pre; [exact H|mem]
    | |- HT _ (bnd _ _) _ _ => eapply h_bnd; [one|intros; cbv beta; one] end.

  Lemma eval_ok :
    (forall e, sxlab L e -> HT [] (sxE X e s) (sxval X e s) (sxl e)) /\ (forall e, vxlab L e -> HT [] (vxE X e s) (vxval X e s) (vxl e)) /\ (forall e, sllab L e -> HT [] (slE X e s) (slval X e s) (sll e)) /\
    (forall e, rxlab L e -> HT [] (rxE X e s) (rxval X e s) (rxl e)) /\ (forall e, txlab L e -> HT [] (txE X e s) (txval X e s) (txl e)) /\ (forall e, hxlab L e -> HT [] (hxE X e s) (hxval X e s) (hxl e)).
  Proof.
    apply geo_ind; intros; cbn [sxlab vxlab sllab rxlab txlab hxlab] in *;
      repeat match goal with H : _ /\ _ |- _ => destruct H end; repeat match goal with H : ?P -> HT _ _ _ _, K : ?P |- _ => specialize (H K) end;
      cbn [sxE vxE slE rxE txE hxE sxval vxval slval rxval txval hxval]; idtac.
    all: eapply (h_weak _ _ _ _ [] []); [one|reflexivity|mem|mem].
  Qed.

  Ltac opened E := repeat match type of E with context [bind ?r _] => let K := fresh "K" in destruct r eqn:K; cbn [bind] in E; try discriminate E end.
  Ltac evs := repeat match goal with
    | H : sxlab L ?a |- _ => lazymatch goal with K : HT [] (sxE X a s) _ _ |- _ => fail | _ => pose proof (proj1 eval_ok a H) end
    | H : vxlab L ?a |- _ => lazymatch goal with K : HT [] (vxE X a s) _ _ |- _ => fail | _ => pose proof (proj1 (proj2 eval_ok) a H) end
    | H : rxlab L ?a |- _ => lazymatch goal with K : HT [] (rxE X a s) _ _ |- _ => fail | _ => pose proof (proj1 (proj2 (proj2 (proj2 eval_ok))) a H) end
    | H : txlab L ?a |- _ => lazymatch goal with K : HT [] (txE X a s) _ _ |- _ => fail | _ => pose proof (proj1 (proj2 (proj2 (proj2 (proj2 eval_ok)))) a H) end
    | H : hxlab L ?a |- _ => lazymatch goal with K : HT [] (hxE X a s) _ _ |- _ => fail | _ => pose proof (proj2 (proj2 (proj2 (proj2 (proj2 eval_ok)))) a H) end end.
  Ltac same := repeat match goal with H : _ = Ok _ |- _ => rewrite H end; repeat match goal with H : Ok _ = Ok _ |- _ => injection H as <- end; cbn [bind]; repeat match goal with |- context [ufac UNeg ?x] => change (ufac UNeg x) with (@Ok R (-1)) end; cbn [bind fst snd bfac]; repeat (match goal with |- context [bind ?r _] => destruct r end; cbn [bind fst snd]); try reflexivity.
  (* Jacobians read the members of fresh nodes *)
  Lemma jac_ok :
    (forall e, sxlab L e -> (exists v, sxval X e s = Ok v) -> HT (sxl e) (sxJ X e s) (sxjac X e s) []) /\ (forall e, vxlab L e -> (exists v, vxval X e s = Ok v) -> HT (vxl e) (vxJ X e s) (vxjac X e s) []) /\
    (forall e, sllab L e -> (exists v, slval X e s = Ok v) -> forall n i, HT (sll e) (slJ X n i e s) (sljac X n i e s) []) /\
    (forall e, rxlab L e -> (exists v, rxval X e s = Ok v) -> HT (rxl e) (rxJ X e s) (rxjac X e s) []) /\ (forall e, txlab L e -> (exists v, txval X e s = Ok v) -> HT (txl e) (txJ X e s) (txjac X e s) []) /\
    (forall e, hxlab L e -> (exists v, hxval X e s = Ok v) -> HT (hxl e) (hxJ X e s) (hxjac X e s) []).
  Proof.
    apply geo_ind; intros; cbn [sxlab vxlab sllab rxlab txlab hxlab] in *;
      repeat match goal with H : _ /\ _ |- _ => destruct H | H : exists _, _ |- _ => destruct H end; repeat match goal with H : ?P -> _ -> _, K : ?P |- _ => specialize (H K) end; evs;
      match goal with H : _ = Ok _ |- _ => cbn [sxval vxval slval rxval txval hxval] in H; opened H end;
      repeat match goal with H : (exists v, _ = Ok v) -> _ |- _ => specialize (H ltac:(eauto)) end.
    all: try match goal with o : uop |- _ => destruct o | o : bop |- _ => destruct o end.
    all: cbn [sxJ vxJ slJ rxJ txJ hxJ sxjac vxjac sljac rxjac txjac hxjac sxl vxl sll rxl txl hxl].
    all: try match goal with H : forall n i, HT _ (slJ X n i ?l s) _ _ |- HT _ (slJ _ ?n ?i ?l _) _ _ => apply H end.
    all: try match goal with H : forall n i, HT _ (slJ X n i ?l s) _ _ |- HT _ (bnd _ (fun _ => bnd (slJ _ ?n ?i ?l _) _)) _ _ => specialize (H n i) end.
    all: try match goal with |- HT ?p _ _ _ => eapply (h_weak _ _ _ _ p p); [one| |mem|mem]; [same] end.
  Qed.

  (* Jacobians of current expressions *)
  Lemma cur_ok :
    (forall e, sxlab L e -> sxcur e = true -> (exists v, sxval X e s = Ok v) -> HT [] (sxJ X e s) (sxjac X e s) []) /\ (forall e, vxlab L e -> vxcur e = true -> (exists v, vxval X e s = Ok v) -> HT [] (vxJ X e s) (vxjac X e s) []) /\
    (forall e, sllab L e -> slcur e = true -> (exists v, slval X e s = Ok v) -> forall n i, HT [] (slJ X n i e s) (sljac X n i e s) []) /\
    (forall e, rxlab L e -> rxcur e = true -> (exists v, rxval X e s = Ok v) -> HT [] (rxJ X e s) (rxjac X e s) []) /\ (forall e, txlab L e -> txcur e = true -> (exists v, txval X e s = Ok v) -> HT [] (txJ X e s) (txjac X e s) []) /\
    (forall e, hxlab L e -> hxcur e = true -> (exists v, hxval X e s = Ok v) -> HT [] (hxJ X e s) (hxjac X e s) []).
  Proof.
    apply geo_ind; intros; cbn [sxlab vxlab sllab rxlab txlab hxlab sxcur vxcur slcur rxcur txcur hxcur] in *;
      repeat match goal with H : _ /\ _ |- _ => destruct H | H : exists _, _ |- _ => destruct H end; repeat match goal with H : ?P -> _ -> _, K : ?P |- _ => specialize (H K) end; evs;
      match goal with H : _ = Ok _ |- _ => cbn [sxval vxval slval rxval txval hxval] in H; opened H end.
    all: try match goal with o : uop |- _ => destruct o | o : bop |- _ => destruct o end.
    all: repeat match goal with H : (_ && _)%bool = true |- _ => apply andb_prop in H; destruct H end; try discriminate.
    all: repeat match goal with H : ?P -> _ -> _, K : ?P |- _ => specialize (H K) end; repeat match goal with H : (exists v, _ = Ok v) -> _ |- _ => specialize (H ltac:(eauto)) end.
    all: repeat match goal with
      | H : sxlab L ?a, K : sxval X ?a s = Ok ?v |- _ => lazymatch goal with Q : HT (sxl a) (sxJ X a s) _ _ |- _ => fail | _ => pose proof (proj1 jac_ok a H (ex_intro _ v K)) end
      | H : vxlab L ?a, K : vxval X ?a s = Ok ?v |- _ => lazymatch goal with Q : HT (vxl a) (vxJ X a s) _ _ |- _ => fail | _ => pose proof (proj1 (proj2 jac_ok) a H (ex_intro _ v K)) end
      | H : rxlab L ?a, K : rxval X ?a s = Ok ?v |- _ => lazymatch goal with Q : HT (rxl a) (rxJ X a s) _ _ |- _ => fail | _ => pose proof (proj1 (proj2 (proj2 (proj2 jac_ok))) a H (ex_intro _ v K)) end
      | H : txlab L ?a, K : txval X ?a s = Ok ?v |- _ => lazymatch goal with Q : HT (txl a) (txJ X a s) _ _ |- _ => fail | _ => pose proof (proj1 (proj2 (proj2 (proj2 (proj2 jac_ok)))) a H (ex_intro _ v K)) end
      | H : hxlab L ?a, K : hxval X ?a s = Ok ?v |- _ => lazymatch goal with Q : HT (hxl a) (hxJ X a s) _ _ |- _ => fail | _ => pose proof (proj2 (proj2 (proj2 (proj2 (proj2 jac_ok)))) a H (ex_intro _ v K)) end end.
    all: cbn [sxJ vxJ slJ rxJ txJ hxJ sxjac vxjac sljac rxjac txjac hxjac].
    all: try match goal with H : forall n i, HT _ (slJ X n i ?l s) _ _ |- HT _ (slJ _ ?n ?i ?l _) _ _ => apply H end.
    all: try match goal with H : forall n i, HT _ (slJ X n i ?l s) _ _ |- HT _ (bnd _ (fun _ => bnd (slJ _ ?n ?i ?l _) _)) _ _ => specialize (H n i) end.
    all: try match goal with |- HT ?p _ _ _ => eapply (h_weak _ _ _ _ p p); [one| |mem|mem]; [same] end.
  Qed.

  (* Jacobians never spoil a member *)
  Definition PR {A} (m : M A) : Prop := forall c l, okc c l -> okc (snd (m c)) l.
  Lemma pr_ht : forall A (m : M A) r q, HT [] m r q -> PR m.
  Proof. intros A m r q H c l Hl. apply (H c); auto. intros ? []. Qed.
  Lemma pr_bnd : forall A B (m : M A) (f : A -> M B), PR m -> (forall x, PR (f x)) -> PR (bnd m f).
  Proof. intros A B m f H1 H2 c l Hl. unfold bnd. specialize (H1 c l Hl). destruct (m c) as [[a| |] c1]; cbn [snd] in *; auto. apply H2; auto. Qed.
  Lemma pr_same : forall A (m : M A), (forall c, snd (m c) = c) -> PR m.
  Proof. intros A m H c l Hl. rewrite H. auto. Qed.
  Ltac pr := match goal with
    | H : PR ?m |- PR ?m => exact H
    | H : forall n i, PR (slJ X n i ?l s) |- PR (slJ X _ _ ?l s) => apply H
    | H : HT [] ?m _ _ |- PR ?m => exact (pr_ht _ _ _ _ H)
    | |- PR (bnd _ _) => apply pr_bnd; [pr|intros; pr]
    | |- PR _ => apply pr_same; reflexivity end.
  Lemma jac_pr :
    (forall e, sxlab L e -> PR (sxJ X e s)) /\ (forall e, vxlab L e -> PR (vxJ X e s)) /\ (forall e, sllab L e -> forall n i, PR (slJ X n i e s)) /\
    (forall e, rxlab L e -> PR (rxJ X e s)) /\ (forall e, txlab L e -> PR (txJ X e s)) /\ (forall e, hxlab L e -> PR (hxJ X e s)).
  Proof.
    apply geo_ind; intros; cbn [sxlab vxlab sllab rxlab txlab hxlab] in *; repeat match goal with H : _ /\ _ |- _ => destruct H end; repeat match goal with H : ?P -> _, K : ?P |- _ => match type of P with Prop => specialize (H K) end end; evs;
      try match goal with o : uop |- _ => destruct o | o : bop |- _ => destruct o end; cbn [sxJ vxJ slJ rxJ txJ hxJ]; pr.
  Qed.

  Definition anyl (e : anyx) : list lab := match e with AS e => sxl e | AV e => vxl e | AR e => rxl e | AT e => txl e | AH e => hxl e end.
  Lemma any_eval_ok : forall e c, any_lab L e -> (forall l, okc c l -> okc (any_eval X e s c) l) /\ (any_value_ok X e s -> forall l, In l (anyl e) -> okc (any_eval X e s c) l).
  Proof.
    assert (G : forall A (m : M A) r q c, HT [] m r q -> (forall l, okc c l -> okc (snd (m c)) l) /\ ((exists v, r = Ok v) -> forall l, In l q -> okc (snd (m c)) l)).
    { intros A m r q c H. destruct (H c) as (_ & P & Q); [intros ? []|]. split; auto. intros (v & Hv). apply (Q v Hv). }
    intros [e|e|e|e|e] c H; cbn [any_lab any_eval any_value_ok anyl] in *; apply (G _ _ _ _ c); apply eval_ok; auto.
  Qed.
  Lemma any_jac_pr : forall e, any_lab L e -> PR (any_jac X e s).
  Proof. intros [e|e|e|e|e] H; cbn [any_lab any_jac] in *; apply jac_pr; auto. Qed.
  Lemma any_jac_ok : forall e c, any_lab L e -> any_value_ok X e s -> (forall l, In l (anyl e) -> okc c l) -> fst (any_jac X e s c) = jac_now X e s.
  Proof. intros [e|e|e|e|e] c H V P; cbn [any_lab any_jac any_value_ok anyl jac_now] in *; apply jac_ok; auto. Qed.
  Lemma any_cur_ok : forall e c, any_lab L e -> any_cur e = true -> any_value_ok X e s -> fst (any_jac X e s c) = jac_now X e s.
  Proof. intros [e|e|e|e|e] c H C V; cbn [any_lab any_jac any_value_ok any_cur jac_now] in *; apply cur_ok; auto; intros ? []. Qed.
End Fix.

Lemma quiet_pres : forall X L h s c, Forall (quiet L) h -> fst (play X h (s, c)) = s /\ forall l, okc X L s c l -> okc X L s (snd (play X h (s, c))) l.
Proof.
  intros X L h. induction h as [|ev h IH]; intros s c Q; [split; auto|]. inversion Q as [|ev' h' Qe Qh]; subst ev' h'. unfold play in *. cbn [fold_left]. destruct ev as [s'|e|e]; cbn [quiet] in *; [contradiction| |]; cbn [play1 fst snd].
  - destruct (IH s (any_eval X e s c) Qh) as (E & P). split; [exact E|]. intros l Hl. apply P. apply (proj1 (any_eval_ok X L s e c Qe)); auto.
  - destruct (IH s (snd (any_jac X e s c)) Qh) as (E & P). split; [exact E|]. intros l Hl. apply P. apply (any_jac_pr X L s e Qe); auto.
Qed.
Lemma after_evaluation : forall X L h1 h2 e sc, any_lab L e -> Forall (quiet L) h2 ->
  let now := play X (h1 ++ EvValue e :: h2) sc in any_value_ok X e (fst now) -> fst (any_jac X e (fst now) (snd now)) = jac_now X e (fst now).
Proof.
  intros X L h1 h2 e sc Hl Q now. subst now. unfold play. rewrite fold_left_app. cbn [fold_left]. destruct (fold_left (play1 X) h1 sc) as [s c]. cbn [play1 fst snd].
  destruct (quiet_pres X L h2 s (any_eval X e s c) Q) as (E & P). unfold play in E, P. rewrite E. intros V. apply (any_jac_ok X L s); auto. intros l Hi. apply P. apply (proj2 (any_eval_ok X L s e c Hl)); auto.
Qed.
Lemma always_current : forall X L h e sc, any_lab L e -> any_cur e = true -> let now := play X h sc in any_value_ok X e (fst now) -> fst (any_jac X e (fst now) (snd now)) = jac_now X e (fst now).
Proof. intros X L h e sc Hl C now V. apply (any_cur_ok X L); auto. Qed.
