From Coq Require Import List Arith Bool Lia.
From Verif Require Import Lib_Res DV_Model Mapped_Model Mapped_Spec.
Import ListNotations.

Section MPP.
  Variable F : Type.
  Variables (fadd : F -> F -> F) (updateQuat : list F -> list F -> list F) (quat2r : list F -> list F) (normalise : list F -> list F).
  Notation mdv := (mdv F). Notation mem := (mem F). Notation world := (world F). Notation event := (event F). Notation step := (step F fadd updateQuat quat2r).
  Notation goes_with := (goes_with F quat2r). Notation do_call := (do_call F fadd updateQuat quat2r). Notation runs := (runs F fadd updateQuat quat2r). Notation left_alone := (left_alone F fadd updateQuat quat2r).
  Notation shows := (shows F quat2r).

  Lemma write_same : forall (m : mem) a v, write m a v a = v. Proof. intros. unfold write. rewrite Nat.eqb_refl. auto. Qed.
  Lemma write_other : forall (m : mem) a v b, b <> a -> write m a v b = m b. Proof. intros. unfold write. rewrite (proj2 (Nat.eqb_neq _ _)) by auto. auto. Qed.
  Lemma upd_same : forall (l : list mdv) i x y, nth_error l i = Some x -> nth_error (upd l i y) i = Some y.
  Proof. induction l as [|z l IH]; intros [|i] x y H; cbn in *; try discriminate; auto. eapply IH; eauto. Qed.
  Lemma upd_other : forall (l : list mdv) i j y, i <> j -> nth_error (upd l i y) j = nth_error l j.
  Proof. induction l as [|z l IH]; intros [|i] [|j] y H; cbn; auto; try lia. Qed.

  Lemma call_kind : forall c x m, d_kind (fst (do_call c x m)) = d_kind x.
  Proof. intros [d| |v|v|a] x m; cbn; auto; unfold mset, mremap; destruct (d_kind x) eqn:E; cbn; auto. Qed.
  Lemma call_elsewhere : forall c x m b, b <> d_at x -> snd (do_call c x m) b = m b.
  Proof. intros [d| |v|v|a] x m b N; cbn; try (apply write_other; auto); unfold mset, mremap; destruct (d_kind x); cbn; auto; apply write_other; auto. Qed.
  (* values that are in step *)
  Definition in_step (x : mdv) (m : mem) : Prop := mvalue x m = goes_with (d_kind x) (m (d_at x)).
  Lemma not_quat_step : forall x m, d_kind x <> Quaternion -> in_step x m.
  Proof. intros x m N. unfold in_step, mvalue, Mapped_Spec.goes_with. destruct (d_kind x); auto. congruence. Qed.
  Lemma call_step : forall c x m, in_step x m -> (forall v, c <> SetValue v) -> in_step (fst (do_call c x m)) (snd (do_call c x m)).
  Proof.
    intros c x m I N. destruct (d_kind x) eqn:E; try (apply not_quat_step; rewrite call_kind, E; discriminate). unfold in_step. rewrite call_kind.
    destruct c as [d| |v|v|a]; cbn; unfold mvalue, Mapped_Spec.goes_with; cbn; rewrite ?E; cbn; rewrite ?write_same; auto.
    - exfalso. eapply N. reflexivity.
    - unfold mremap. rewrite E. cbn. unfold in_step, mvalue, Mapped_Spec.goes_with in I. rewrite E in I. cbn. rewrite E. exact I.
  Qed.
  Lemma shows_iff : forall w i, shows w i <-> exists x, nth_error (fst w) i = Some x /\ in_step x (snd w).
  Proof. intros w i. split; [intros (x & E & H & _); exists x; auto|intros (x & E & H); exists x; split; [auto|split; [exact H|reflexivity]]]. Qed.

  Lemma step_shows : forall w i e, shows w i -> leaves F w i e -> shows (step w e) i.
  Proof.
    intros w i e S L. apply shows_iff in S. apply shows_iff. destruct S as (x & E & I). destruct e as [j c|a v]; cbn [Mapped_Model.step leaves] in *.
    - destruct L as [(-> & N)|(N & D)].
      + rewrite E. eexists. split; [cbn [fst]; eapply upd_same; eauto|]. cbn [snd]. apply call_step; auto.
      + destruct (nth_error (fst w) j) as [y|] eqn:Ej; [|exists x; auto]. exists x. cbn [fst snd]. split; [rewrite upd_other by auto; auto|]. unfold in_step in *.
        assert (M : snd (do_call c y (snd w)) (d_at x) = snd w (d_at x)). { apply call_elsewhere. intro Q. apply (D (d_at x)); [exists x; auto|exists y; auto]. }
        rewrite M, <- I. unfold mvalue. destruct (d_kind x); auto.
    - exists x. cbn [fst snd]. split; [auto|]. assert (M : write (snd w) a v (d_at x) = snd w (d_at x)). { apply write_other. intro Q. apply L. exists x. auto. }
      unfold in_step in *. rewrite M, <- I. unfold mvalue. destruct (d_kind x); auto.
  Qed.
  Lemma view : forall es w i, shows w i -> left_alone i w es -> shows (runs w es) i.
  Proof. induction es as [|e es IH]; intros w i S L; cbn in *; auto. destruct L as (L1 & L2). apply IH; auto. apply step_shows; auto. Qed.
  Lemma step_kind : forall w i e, not_a_quaternion w i -> not_a_quaternion (step w e) i.
  Proof.
    intros w i e (x & E & N). destruct e as [j c|a v]; cbn [Mapped_Model.step]; [|exists x; auto]. destruct (nth_error (fst w) j) as [y|] eqn:Ej; [|exists x; auto].
    destruct (Nat.eq_dec j i) as [->|D].
    - rewrite E in Ej. injection Ej as <-. eexists. split; [cbn [fst]; eapply upd_same; eauto|]. rewrite call_kind. auto.
    - exists x. cbn [fst]. rewrite upd_other by auto. auto.
  Qed.
  Lemma view_all : forall es w i, not_a_quaternion w i -> shows (runs w es) i.
  Proof.
    induction es as [|e es IH]; intros w i N; cbn; [|apply IH, step_kind; auto]. destruct N as (x & E & N). apply shows_iff. exists x. split; auto. apply not_quat_step; auto.
  Qed.
  Lemma make_shows : forall k a m l, shows (l ++ [fst (make F quat2r normalise k a m)], snd (make F quat2r normalise k a m)) (length l).
  Proof.
    intros k a m l. apply shows_iff. eexists. cbn [fst]. split; [rewrite nth_error_app2, Nat.sub_diag by auto; reflexivity|]. unfold in_step, mvalue, Mapped_Spec.goes_with. cbn [snd].
    unfold make. cbn. rewrite write_same. destruct k; auto.
  Qed.

  (** reverting *)
  Notation update_all := (update_all F fadd updateQuat quat2r). Notation revert_all := (revert_all F quat2r).
  Lemma rev_out : forall l (m : mem) a, ~ In a (map d_at l) -> snd (revert_all l m) a = m a.
  Proof. induction l as [|x l IH]; intros m a N; cbn in *; auto. rewrite IH by tauto. apply write_other. intuition. Qed.
  Lemma rev_in : forall l (m : mem) x, NoDup (map d_at l) -> In x l -> snd (revert_all l m) (d_at x) = d_prev x.
  Proof.
    induction l as [|y l IH]; intros m x D I; cbn in *; [destruct I|]. inversion D; subst. destruct I as [->|I]; [rewrite rev_out by auto; apply write_same|]. apply IH; auto.
  Qed.
  Lemma up_out : forall l ds (m : mem) a, ~ In a (map d_at l) -> snd (update_all l ds m) a = m a.
  Proof. induction l as [|x l IH]; intros [|d ds] m a N; cbn in *; auto. rewrite IH by tauto. apply write_other. intuition. Qed.
  Lemma up_addr : forall l ds (m : mem), map d_at (fst (update_all l ds m)) = map d_at l /\ map d_kind (fst (update_all l ds m)) = map d_kind l.
  Proof. induction l as [|x l IH]; intros [|d ds] m; cbn; auto. destruct (IH ds (write m (d_at x) (plus F fadd updateQuat (d_kind x) (m (d_at x)) d))) as (-> & ->). auto. Qed.
  Lemma up_prev : forall l ds (m : mem), NoDup (map d_at l) -> length ds = length l -> Forall (fun y => d_prev y = m (d_at y)) (fst (update_all l ds m)).
  Proof.
    induction l as [|x l IH]; intros [|d ds] m D L; cbn in *; try discriminate; constructor; inversion D; subst; [reflexivity|]. injection L as L.
    set (m1 := write m (d_at x) (plus F fadd updateQuat (d_kind x) (m (d_at x)) d)). pose proof (IH ds m1 H2 L) as P. rewrite Forall_forall in *. intros y I. rewrite (P y I). unfold m1. apply write_other.
    intro Q. apply H1. rewrite <- Q. destruct (up_addr l ds m1) as (<- & _). apply in_map. exact I.
  Qed.
  Lemma revert_restores : forall l ds (m : mem), NoDup (map d_at l) -> length ds = length l -> let u := update_all l ds m in let r := revert_all (fst u) (snd u) in forall a, snd r a = m a.
  Proof.
    intros l ds m D L u r a. destruct (in_dec Nat.eq_dec a (map d_at (fst u))) as [I|N].
    - apply in_map_iff in I. destruct I as (y & <- & I). unfold r. rewrite rev_in; auto; [|unfold u; rewrite (proj1 (up_addr l ds m)); auto]. pose proof (up_prev l ds m D L) as P. rewrite Forall_forall in P. auto.
    - unfold r. rewrite rev_out by auto. unfold u in *. rewrite (proj1 (up_addr l ds m)) in N. apply up_out; auto.
  Qed.
  Lemma rev_nth : forall l (m : mem) i y, nth_error l i = Some y -> exists z, nth_error (fst (revert_all l m)) i = Some z /\ d_kind z = d_kind y /\ d_at z = d_at y /\ d_C z = refresh F quat2r (d_kind y) (d_prev y) (d_C y).
  Proof. induction l as [|x l IH]; intros m [|i] y E; cbn in *; try discriminate; [injection E as <-; eexists; split; [reflexivity|auto]|]. apply IH; auto. Qed.
  Lemma up_nth : forall l ds (m : mem) i x, nth_error l i = Some x -> exists y, nth_error (fst (update_all l ds m)) i = Some y /\ d_kind y = d_kind x /\ d_at y = d_at x.
  Proof. induction l as [|z l IH]; intros [|d ds] m [|i] x E; cbn in *; try discriminate; try (injection E as <-); eauto. Qed.
  Lemma revert_values : forall l ds (m : mem), NoDup (map d_at l) -> length ds = length l -> let u := update_all l ds m in let r := revert_all (fst u) (snd u) in
    forall i x, nth_error l i = Some x -> shows (l, m) i -> exists z, nth_error (fst r) i = Some z /\ mvalue z (snd r) = mvalue x m /\ mparams z (snd r) = mparams x m.
  Proof.
    intros l ds m D L u r i x E S. apply shows_iff in S. destruct S as (x' & E' & I). cbn [fst snd] in *. rewrite E in E'. injection E' as <-. destruct (up_nth l ds m i x E) as (y & Ey & Ky & Ay).
    destruct (rev_nth (fst u) (snd u) i y Ey) as (z & Ez & Kz & Az & Cz). exists z. split; [exact Ez|]. pose proof (revert_restores l ds m D L (d_at x)) as M. fold u in M. fold r in M.
    unfold mvalue, mparams. rewrite Kz, Az, Ay, Ky. split; [|exact M]. destruct (d_kind x) eqn:K; try exact M. rewrite Cz, Ky. cbn. pose proof (up_prev l ds m D L) as P. rewrite Forall_forall in P. rewrite (P y) by (eapply nth_error_In; eauto).
    rewrite Ay. unfold in_step, mvalue, Mapped_Spec.goes_with in I. rewrite K in I. auto.
  Qed.

  (** set of a quaternion, and writes of the caller, do not reach the rotation matrix *)
  Lemma set_stale : forall (w : world) i x q, nth_error (fst w) i = Some x -> d_kind x = Quaternion ->
    let w' := step w (Call i (SetValue q)) in exists y, nth_error (fst w') i = Some y /\ mparams y (snd w') = q /\ mvalue y (snd w') = mvalue x (snd w).
  Proof.
    intros w i x q E K. cbn [Mapped_Model.step]. rewrite E. unfold Mapped_Model.do_call, mset. rewrite K. cbn [fst snd]. eexists. split; [eapply upd_same; eauto|]. unfold mparams, mvalue. cbn. rewrite write_same, K. auto.
  Qed.
  Lemma write_stale : forall (w : world) i x q, nth_error (fst w) i = Some x -> d_kind x = Quaternion ->
    let w' := step w (Write (d_at x) q) in nth_error (fst w') i = Some x /\ mparams x (snd w') = q /\ mvalue x (snd w') = mvalue x (snd w).
  Proof. intros w i x q E K. cbn [Mapped_Model.step fst snd]. split; [auto|]. unfold mparams, mvalue. rewrite write_same, K. auto. Qed.
  (** the transformation *)
  Notation map_transformation := (map_transformation F quat2r normalise).
  Lemma map_shows : forall aq at_ m, aq <> at_ -> shows (map_transformation aq at_ m) 0 /\ shows (map_transformation aq at_ m) 1.
  Proof.
    intros aq at_ m N. split; apply shows_iff; (eexists; split; [reflexivity|]); unfold in_step, mvalue, Mapped_Spec.goes_with; cbn.
    - rewrite write_other by auto. rewrite write_same. auto.
    - auto.
  Qed.
  Lemma step_len : forall w e, length (fst (step w e)) = length (fst w).
  Proof.
    intros w [j c|a v]; cbn [Mapped_Model.step]; auto. destruct (nth_error (fst w) j); auto. cbn [fst]. generalize (fst (do_call c m (snd w))). generalize (fst w). intros l. revert j. induction l as [|z l IH]; intros [|j] y; cbn; auto.
  Qed.
  Lemma step_at : forall w e i a k, at_address w i a -> (exists x, nth_error (fst w) i = Some x /\ d_kind x = k) -> k <> Vector -> at_address (step w e) i a /\ exists x, nth_error (fst (step w e)) i = Some x /\ d_kind x = k.
  Proof.
    intros w e i a k (x & E & A) (x' & E' & K) N. rewrite E in E'. injection E' as <-. destruct e as [j c|b v]; cbn [Mapped_Model.step]; [|split; exists x; auto]. destruct (nth_error (fst w) j) as [y|] eqn:Ej; [|split; exists x; auto].
    destruct (Nat.eq_dec j i) as [->|D].
    - rewrite E in Ej. injection Ej as <-. split; (eexists; split; [cbn [fst]; eapply upd_same; eauto|]); [|rewrite call_kind; auto]. rewrite <- A. destruct c as [d| |v|v|b]; cbn; auto; [unfold mset|unfold mremap]; destruct (d_kind x) eqn:Q; cbn; auto; congruence.
    - split; exists x; cbn [fst]; rewrite upd_other by auto; auto.
  Qed.
  Lemma runs_at : forall es w i a k, at_address w i a -> (exists x, nth_error (fst w) i = Some x /\ d_kind x = k) -> k <> Vector -> at_address (runs w es) i a /\ exists x, nth_error (fst (runs w es)) i = Some x /\ d_kind x = k.
  Proof. induction es as [|e es IH]; intros w i a k A K N; cbn; auto. destruct (step_at w e i a k A K N). apply IH; auto. Qed.
  Lemma runs_len : forall es w, length (fst (runs w es)) = length (fst w). Proof. induction es as [|e es IH]; intros w; cbn; auto. unfold Mapped_Spec.runs in IH. rewrite IH. apply step_len. Qed.
  Lemma transformation : forall aq at_ m es, aq <> at_ -> let w := map_transformation aq at_ m in left_alone 0 w es ->
    expression_value (runs w es) = Some (quat2r (snd (runs w es) aq), snd (runs w es) at_).
  Proof.
    intros aq at_ m es N w L. pose proof (view es w 0 (proj1 (map_shows aq at_ m N)) L) as S0. assert (S1 : shows (runs w es) 1) by (apply view_all; eexists; split; [reflexivity|cbn; discriminate]).
    destruct (runs_at es w 0 aq Quaternion) as (A0 & K0); [eexists; split; reflexivity|eexists; split; reflexivity|discriminate|]. destruct (runs_at es w 1 at_ Point) as (A1 & K1); [eexists; split; reflexivity|eexists; split; reflexivity|discriminate|].
    assert (Ln : length (fst (runs w es)) = 2) by apply (runs_len es w). clear L. generalize dependent (runs w es). intros (l & m') S0 S1 A0 K0 A1 K1 Ln. unfold expression_value. cbn [fst snd] in *. destruct l as [|q [|t [|? ?]]]; try discriminate.
    destruct S0 as (x & Ex & Vx & _). cbn in Ex. injection Ex as <-. destruct S1 as (y & Ey & Vy & _). cbn in Ey. injection Ey as <-.
    destruct A0 as (x & Ex & Ax). cbn in Ex. injection Ex as <-. destruct A1 as (y & Ey & Ay). cbn in Ey. injection Ey as <-. destruct K0 as (x & Ex & Kx). cbn in Ex. injection Ex as <-. destruct K1 as (y & Ey & Ky). cbn in Ey. injection Ey as <-. cbn [snd] in *.
    rewrite Vx, Vy, Ax, Ay, Kx, Ky. reflexivity.
  Qed.
  Lemma make_mem : forall k a (m : mem) b, b <> a -> snd (make F quat2r normalise k a m) b = m b. Proof. intros. unfold make. cbn [snd]. apply write_other; auto. Qed.
  Lemma make_mem_all : forall k a (m : mem), k <> Homogeneous -> forall b, snd (make F quat2r normalise k a m) b = m b.
  Proof. intros k a m N b. unfold make. cbn [snd]. unfold write. destruct (Nat.eqb_spec b a) as [->|]; auto. destruct k; auto. congruence. Qed.
  Lemma make_mem_hom : forall k a (m : mem), k = Homogeneous -> snd (make F quat2r normalise k a m) a = normalise (m a). Proof. intros k a m ->. unfold make. cbn [snd]. apply write_same. Qed.
  Lemma set_unshown : forall (w : world) i x q, nth_error (fst w) i = Some x -> d_kind x = Quaternion -> shows w i -> quat2r q <> quat2r (mparams x (snd w)) -> ~ shows (step w (Call i (SetValue q))) i.
  Proof.
    intros w i x q E K S N S'. destruct (set_stale w i x q E K) as (y & Ey & P & V). destruct S as (x' & E' & V' & _). rewrite E in E'. injection E' as <-. destruct S' as (y' & Ey' & W & P'). rewrite Ey in Ey'. injection Ey' as <-.
    rewrite V, V' in W. unfold mparams in P. rewrite P in W. apply N. unfold Mapped_Spec.goes_with in W. rewrite K in W. assert (Ky : d_kind y = Quaternion).
    { revert Ey. cbn [Mapped_Model.step]. rewrite E. cbn [fst]. rewrite (upd_same _ _ _ _ E). intros [= <-]. rewrite <- K. apply (call_kind (SetValue q)). }
    rewrite Ky in W. unfold mparams. auto.
  Qed.
  Lemma shared : forall x y d1 d2 (m : mem), d_kind x = Point -> d_kind y = Point -> d_at x = d_at y ->
    let u := update_all [x; y] [d1; d2] m in let r := revert_all (fst u) (snd u) in snd u (d_at x) = vplus F fadd (vplus F fadd (m (d_at x)) d1) d2 /\ snd r (d_at x) = vplus F fadd (m (d_at x)) d1.
  Proof. intros x y d1 d2 m Kx Ky A. cbn. rewrite Kx, Ky, <- A. cbn. rewrite !write_same. auto. Qed.
  Lemma mixed : forall aq at_ m q t, aq <> at_ -> let w' := runs (map_transformation aq at_ m) [Write aq q; Write at_ t] in snd w' aq = q /\ snd w' at_ = t /\ expression_value w' = Some (quat2r (m aq), t).
  Proof. intros aq at_ m q t N. cbn. unfold expression_value, mvalue. cbn. rewrite write_same, (write_other _ at_ _ aq), write_same by auto. auto. Qed.

  (* what a revert gives back after each of the functions *)
  Lemma revert_after : forall (w : world) i x c, nth_error (fst w) i = Some x -> (forall v, c = SetValue v -> d_kind x = Point \/ d_kind x = Quaternion) -> (forall a, c = Remap a -> d_kind x = Vector) ->
    let w1 := step w (Call i c) in let w2 := step w1 (Call i Revert) in
    forall a, snd w2 a = match c with Update _ | SetParameters _ => snd w a | _ => snd w1 a end.
  Proof.
    intros w i x c H Hs Hr w1 w2 a. unfold w2, w1. cbn [step Mapped_Model.step]. rewrite H. cbn [fst snd]. rewrite (upd_same _ _ _ _ H). cbn [fst snd].
    destruct c as [d| |v|v|b]; cbn [do_call Mapped_Model.do_call mupdate mrevert msetParameters fst snd d_at d_prev].
    - unfold write. destruct (a =? d_at x) eqn:E; auto. apply Nat.eqb_eq in E. subst; auto.
    - unfold write. destruct (a =? d_at x) eqn:E; auto.
    - unfold write. destruct (a =? d_at x) eqn:E; auto. apply Nat.eqb_eq in E. subst; auto.
    - unfold mset. destruct (Hs v eq_refl) as [K|K]; rewrite K; cbn [fst snd d_at d_prev]; unfold write; destruct (a =? d_at x); auto.
    - unfold mremap. rewrite (Hr b eq_refl). cbn [fst snd d_at d_prev]. unfold write. destruct (a =? b) eqn:E; auto. apply Nat.eqb_eq in E. subst; auto.
  Qed.
  Lemma remapped : forall (w : world) i x a, nth_error (fst w) i = Some x -> d_kind x = Vector ->
    let w1 := step w (Call i (Remap a)) in at_address w1 i a /\ shows w1 i /\ forall b, snd w1 b = snd w b.
  Proof.
    intros w i x a H K w1. unfold w1. cbn [step Mapped_Model.step]. rewrite H. cbn [do_call Mapped_Model.do_call]. unfold mremap. rewrite K. cbn [fst snd].
    assert (U := upd_same _ _ _ (mkMdv Vector a (snd w a) (d_C x)) H). split; [eexists; split; [exact U|reflexivity]|]. split; [|reflexivity]. eexists. split; [exact U|]. split; reflexivity.
  Qed.
End MPP.
Lemma constructed : forall F quat2r normalise k a (m : mem F) l,
  let x := make F quat2r normalise k a m in
  shows F quat2r (l ++ [fst x], snd x) (length l) /\ (forall b, b <> a -> snd x b = m b) /\ (k <> Homogeneous -> forall b, snd x b = m b) /\ (k = Homogeneous -> snd x a = normalise (m a)).
Proof. intros F quat2r normalise k a m l x. split; [apply make_shows|]. split; [apply make_mem|]. split; [apply make_mem_all|apply make_mem_hom]. Qed.
Lemma view_vectors : forall F fadd updateQuat quat2r (w : world F) i es, not_a_quaternion w i -> shows F quat2r (runs F fadd updateQuat quat2r w es) i.
Proof. intros. apply view_all. auto. Qed.
Lemma view_any : forall F fadd updateQuat quat2r (w : world F) i es, shows F quat2r w i -> left_alone F fadd updateQuat quat2r i w es -> shows F quat2r (runs F fadd updateQuat quat2r w es) i.
Proof. intros. apply view; auto. Qed.
Lemma set_keeps_matrix : forall F fadd updateQuat quat2r (w : world F) i x q, nth_error (fst w) i = Some x -> d_kind x = Quaternion ->
  let w' := step F fadd updateQuat quat2r w (Call i (SetValue q)) in exists y, nth_error (fst w') i = Some y /\ mparams y (snd w') = q /\ mvalue y (snd w') = mvalue x (snd w).
Proof. intros. apply set_stale; auto. Qed.
Lemma set_not_shown : forall F fadd updateQuat quat2r (w : world F) i x q, nth_error (fst w) i = Some x -> d_kind x = Quaternion -> shows F quat2r w i -> quat2r q <> quat2r (mparams x (snd w)) ->
  ~ shows F quat2r (step F fadd updateQuat quat2r w (Call i (SetValue q))) i.
Proof. intros. eapply set_unshown; eauto. Qed.
Lemma write_keeps_matrix : forall F fadd updateQuat quat2r (w : world F) i x q, nth_error (fst w) i = Some x -> d_kind x = Quaternion ->
  let w' := step F fadd updateQuat quat2r w (Write (d_at x) q) in nth_error (fst w') i = Some x /\ mparams x (snd w') = q /\ mvalue x (snd w') = mvalue x (snd w).
Proof. intros. apply write_stale; auto. Qed.
Lemma step_and_revert : forall F fadd updateQuat quat2r l ds (m : mem F), NoDup (map d_at l) -> length ds = length l ->
  let u := update_all F fadd updateQuat quat2r l ds m in let r := revert_all F quat2r (fst u) (snd u) in
  (forall a, snd r a = m a) /\ forall i x, nth_error l i = Some x -> shows F quat2r (l, m) i -> exists z, nth_error (fst r) i = Some z /\ mvalue z (snd r) = mvalue x m /\ mparams z (snd r) = mparams x m.
Proof. intros. split; [apply revert_restores; auto|apply revert_values; auto]. Qed.
Lemma shared_revert : forall F fadd updateQuat quat2r x y d1 d2 (m : mem F), d_kind x = Point -> d_kind y = Point -> d_at x = d_at y ->
  let u := update_all F fadd updateQuat quat2r [x; y] [d1; d2] m in let r := revert_all F quat2r (fst u) (snd u) in
  snd u (d_at x) = vplus F fadd (vplus F fadd (m (d_at x)) d1) d2 /\ snd r (d_at x) = vplus F fadd (m (d_at x)) d1.
Proof. intros. apply shared; auto. Qed.
Lemma transformation_shown : forall F fadd updateQuat quat2r normalise aq at_ (m : mem F) es, aq <> at_ -> let w := map_transformation F quat2r normalise aq at_ m in
  left_alone F fadd updateQuat quat2r 0 w es -> let w' := runs F fadd updateQuat quat2r w es in expression_value w' = Some (quat2r (snd w' aq), snd w' at_).
Proof. intros. apply transformation; auto. Qed.
Lemma transformation_mixed : forall F fadd updateQuat quat2r normalise aq at_ (m : mem F) q t, aq <> at_ ->
  let w' := runs F fadd updateQuat quat2r (map_transformation F quat2r normalise aq at_ m) [Write aq q; Write at_ t] in
  snd w' aq = q /\ snd w' at_ = t /\ expression_value w' = Some (quat2r (m aq), t).
Proof. intros. apply mixed; auto. Qed.
