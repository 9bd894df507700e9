From Coq Require Import List Arith Bool ZArith Lia Permutation.
From Flocq Require Import IEEE754.BinarySingleNaN.
From Verif Require Import Lib_Res Lib_Float Fin_Model Fin_Spec.
Import ListNotations.

Section FP.
  Variable F : Type.
  Variables (fz fo : F) (fadd fmul : F -> F -> F) (fin : F -> bool).
  Notation fm := (fm F). Notation finite := (finite F fin). Notation factor := (factor F). Notation ffinite := (ffinite F fin). Notation width := (width F). Notation fmm := (fmm F fz fadd fmul). Notation fscale := (fscale F fmul). Notation fid := (fid F fz fo).
  Notation allFinite := (allFinite F fin). Notation follow := (follow F). Notation all_handed := (all_handed F fin). Notation sized := (sized F).

  Lemma allFinite_iff : forall A, allFinite A = true <-> finite A.
  Proof.
    intros A. unfold Fin_Model.allFinite. rewrite forallb_forall. split.
    - intros H i j Hi Hj. assert (Ii : In i (seq 0 (rows A))) by (apply in_seq; lia). specialize (H i Ii). rewrite forallb_forall in H. apply H, in_seq. lia.
    - intros H i Ii. apply in_seq in Ii. rewrite forallb_forall. intros j Ij. apply in_seq in Ij. apply H; lia.
  Qed.

  Section Abs.
  Hypothesis abs : absorbing F fin fadd fmul.
  Lemma fin_add : forall a b, fin (fadd a b) = true -> fin a = true /\ fin b = true. Proof. apply abs. Qed.
  Lemma fin_mul : forall a b, fin (fmul a b) = true -> fin a = true /\ fin b = true. Proof. apply abs. Qed.
  Lemma dot_fin : forall n f, fin (dot F fz fadd n f) = true -> forall k, k < n -> fin (f k) = true.
  Proof.
    induction n as [|[|n] IH]; intros f H k L; [lia|replace k with 0 by lia; exact H|]. change (fin (fadd (dot F fz fadd (S n) f) (f (S n))) = true) in H. apply fin_add in H. destruct H as (H1 & H2).
    destruct (Nat.eq_dec k (S n)) as [->|N]; [exact H2|apply (IH f H1); lia].
  Qed.
  Lemma fmm_fin : forall A B, rows B = cols A -> finite (fmm A B) -> (0 < cols B -> finite A) /\ (0 < rows A -> finite B).
  Proof.
    intros A B E H. assert (G : forall i j k, i < rows A -> j < cols B -> k < cols A -> fin (at_ A i k) = true /\ fin (at_ B k j) = true).
    { intros i j k Hi Hj Hk. specialize (H i j Hi Hj). cbn in H. pose proof (dot_fin _ _ H k Hk) as Q. cbn in Q. apply fin_mul in Q. exact Q. }
    split; intros P i j Hi Hj; [apply (G i 0 j); auto|apply (G 0 j i); auto; lia].
  Qed.
  Lemma fscale_fin : forall A a, 0 < rows A -> 0 < cols A -> finite (fscale A a) -> finite A /\ fin a = true.
  Proof. intros A a R C H. split; [intros i j Hi Hj|]; [specialize (H i j Hi Hj)|specialize (H 0 0 R C)]; cbn in H; apply fin_mul in H; tauto. Qed.

  (* the stack holds the running products *)
  Fixpoint rep (r : nat) (l : list factor) (st : list fm) : Prop :=
    match l, st with
    | [], [] => True
    | Mat m :: l', t :: st' => rep r l' st' /\ match st' with [] => t = m /\ rows m = r | t0 :: _ => t = fmm t0 m /\ rows m = cols t0 end
    | Sca a :: l', t :: st' => rep r l' st' /\ t = fscale match st' with [] => fid r r | t0 :: _ => t0 end a
    | _, _ => False
    end.
  Definition pos (l : list factor) : Prop := Forall (fun f => match f with Mat m => 0 < cols m | Sca _ => True end) l.
  Lemma width_pos : forall r l, 0 < r -> pos l -> 0 < width r l.
  Proof. intros r l R. induction l as [|[m|a] l IH]; intros P; cbn; auto; inversion P; auto. Qed.
  Lemma rep_dims : forall r l t st, rep r l (t :: st) -> rows t = r /\ cols t = width r l.
  Proof.
    intros r l. induction l as [|[m|a] l IH]; intros t st H; cbn in H; [destruct H| |]; destruct H as (H1 & H2).
    - destruct st as [|t0 st]; [destruct H2 as (-> & <-); auto|]. destruct H2 as (-> & E). destruct (IH _ _ H1) as (R & C). cbn. auto.
    - subst t. destruct st as [|t0 st]; cbn [Fin_Model.fscale rows cols Fin_Model.fid Fin_Spec.width]; [destruct l as [|f l]; [cbn; auto|destruct f; cbn in H1; destruct H1]|]. apply (IH _ _ H1).
  Qed.
  Lemma rep_fin : forall r l t st, 0 < r -> pos l -> rep r l (t :: st) -> finite t -> Forall ffinite l.
  Proof.
    intros r l. induction l as [|f l IH]; intros t st R P H Ft; [constructor|]. inversion P as [|? ? Pf Pl]; subst. destruct f as [m|a]; cbn in H; destruct H as (H1 & H2); destruct st as [|t0 st].
    - destruct H2 as (-> & E). destruct l as [|g l]; [constructor; auto|destruct g; destruct H1].
    - destruct H2 as (-> & E). destruct (fmm_fin t0 m E Ft) as (A & B). destruct (rep_dims _ _ _ _ H1) as (R0 & C0). constructor; [cbn; apply B; lia|]. eapply IH; eauto.
    - subst t. destruct l as [|g l]; [|destruct g; destruct H1]. constructor; [|constructor]. cbn. apply (fscale_fin (fid r r)); cbn; auto.
    - subst t. destruct (rep_dims _ _ _ _ H1) as (R0 & C0). destruct (fscale_fin t0 a) as (A & B); auto; [lia|rewrite C0; apply width_pos; auto|]. constructor; [exact B|]. eapply IH; eauto.
  Qed.

  Section Store.
  Variable store : Type. Variable addJ : store -> dv -> fm -> res store. Variable d : dv. Variables G wf : store -> Prop.
  Hypothesis addwf : forall s e A s', wf s -> addJ s e A = Ok s' -> wf s'.
  Hypothesis addG : forall s e A s', wf s -> addJ s e A = Ok s' -> (v_block e = v_block d -> v_dim e = v_dim d /\ v_col e = v_col d /\ cols A = v_dim d) -> G s' -> G s /\ (v_block e = v_block d -> finite A).
  Notation crun := (crun F fz fo fadd fmul store addJ). Notation cstep := (cstep F fz fo fadd fmul store addJ).
  Lemma step_fin : forall c o c' l, 0 < c_rows c -> 0 < v_dim d -> cstep c o = Ok c' -> wf (c_store c) -> rep (c_rows c) l (c_stack c) -> pos l ->
    match o with Apply m => 0 < cols m | Add e A => v_block e = v_block d -> v_dim e = v_dim d /\ v_col e = v_col d | AddId e => v_block e = v_block d -> v_dim e = v_dim d /\ v_col e = v_col d /\ (l <> [] -> width (c_rows c) l = v_dim d) | _ => True end ->
    c_rows c' = c_rows c /\ wf (c_store c') /\ rep (c_rows c) (follow l o) (c_stack c') /\ pos (follow l o) /\ (G (c_store c') -> G (c_store c) /\ handed F fin d l o).
  Proof.
    intros c o c' l R D E W P Q Z. destruct o as [m|a| |e A|e]; cbn [Fin_Model.cstep Fin_Spec.follow Fin_Spec.handed] in *.
    - unfold capply in E. destruct (c_stack c) as [|t st] eqn:Es.
      + destruct (Nat.eqb_spec (rows m) (c_rows c)); try discriminate. injection E as <-. cbn. split; auto. split; auto. split; [split; auto|]. split; [constructor; auto|tauto].
      + destruct (Nat.eqb_spec (rows m) (cols t)); try discriminate. injection E as <-. cbn [c_rows c_store c_stack]. split; auto. split; auto. split; [cbn; auto|]. split; [constructor; auto|tauto].
    - unfold capplyS in E. injection E as <-. cbn [c_rows c_store c_stack]. split; auto. split; auto. split; [cbn; auto|]. split; [constructor; auto|tauto].
    - unfold cend in E. destruct (c_stack c) as [|t st] eqn:Es; try discriminate. injection E as <-. cbn [c_rows c_store c_stack]. split; auto. split; auto. destruct l as [|f l]; [destruct P|]. inversion Q; subst. split; [destruct f; cbn in P; apply P|]. split; [auto|tauto].
    - unfold cadd in E. destruct (cols A =? v_dim e) eqn:Ec; cbn [negb] in E; [apply Nat.eqb_eq in Ec|discriminate E]. destruct (v_active e) eqn:Ea; cbn [negb] in E.
      2:{ injection E as <-. split; auto. split; auto. split; auto. split; auto. intros g. split; auto. discriminate. }
      destruct (v_block e <? 0)%Z; [discriminate E|]. destruct (c_stack c) as [|t st] eqn:Es.
      + destruct (Nat.eqb_spec (rows A) (c_rows c)); try discriminate. destruct (addJ (c_store c) e A) as [s| |] eqn:Ej; try discriminate. injection E as <-. cbn [c_rows c_store c_stack].
        split; auto. split; [eapply addwf; [exact W|exact Ej]|]. split; [exact P|]. split; auto. intros g. destruct (addG _ _ _ _ W Ej) as (g1 & g2); auto; [intros B; destruct (Z B); repeat split; auto; lia|]. split; auto. intros _ B. split; [auto|]. destruct l as [|f l]; [constructor|destruct f; destruct P].
      + destruct (Nat.eqb_spec (rows A) (cols t)); try discriminate. destruct (addJ (c_store c) e (fmm t A)) as [s| |] eqn:Ej; try discriminate. injection E as <-. cbn [c_rows c_store c_stack].
        split; auto. split; [eapply addwf; [exact W|exact Ej]|]. split; [exact P|]. split; auto. intros g. destruct (addG _ _ _ _ W Ej) as (g1 & g2); auto; [intros B; destruct (Z B); cbn; repeat split; auto; lia|]. split; auto. intros _ B.
        destruct (Z B) as (Zd & _). destruct (rep_dims _ _ _ _ P) as (Rt & _). destruct (fmm_fin t A e0 (g2 B)) as (T1 & S1). split; [apply S1; lia|]. apply (rep_fin (c_rows c) l t st); auto. apply T1. lia.
    - unfold caddId in E. destruct (v_active e) eqn:Ea; cbn [negb] in E.
      2:{ injection E as <-. split; auto. split; auto. split; auto. split; auto. intros g. split; auto. discriminate. }
      destruct (v_block e <? 0)%Z; [discriminate E|]. destruct (addJ (c_store c) e _) as [s| |] eqn:Ej in E; try discriminate. injection E as <-. cbn [c_rows c_store c_stack].
      split; auto. split; [eapply addwf; [exact W|exact Ej]|]. split; [exact P|]. split; auto. destruct (c_stack c) as [|t st] eqn:Es.
      + intros g. destruct (addG _ _ _ _ W Ej) as (g1 & g2); auto; [intros B; destruct (Z B) as (? & ? & _); cbn; auto|]. split; auto. intros _ B. destruct l as [|f l]; [constructor|destruct f; destruct P].
      + destruct (rep_dims _ _ _ _ P) as (Rt & Ct). intros g. destruct (addG _ _ _ _ W Ej) as (g1 & g2); auto.
        { intros B. destruct (Z B) as (? & ? & Zw). repeat split; auto. rewrite Ct. apply Zw. intros ->. destruct P. }
        split; auto. intros _ B. apply (rep_fin (c_rows c) l t st); auto.
  Qed.
  Lemma run_fin : forall ops c c' l, 0 < c_rows c -> 0 < v_dim d -> crun c ops = Ok c' -> wf (c_store c) -> rep (c_rows c) l (c_stack c) -> pos l -> sized d (c_rows c) l ops -> G (c_store c') -> G (c_store c) /\ all_handed d l ops.
  Proof.
    induction ops as [|o ops IH]; intros c c' l R D E W P Q Z g.
    - injection E as <-. cbn. auto.
    - cbn in E. destruct (cstep c o) as [c1| |] eqn:Ec; try discriminate. destruct Z as (Z1 & Z2). destruct (step_fin c o c1 l R D Ec W P Q Z1) as (R1 & W1 & P1 & Q1 & G1). cbn [bind] in E. rewrite <- R1 in *.
      destruct (IH c1 c' (follow l o)) as (g1 & h1); auto. destruct (G1 g1) as (g0 & h0). split; auto. split; auto.
  Qed.
  End Store.

  (** the sparse container *)
  Inductive sorted : smap F -> Prop :=
  | so_nil : sorted []
  | so_cons : forall e M t, sorted t -> Forall (fun x => (v_block e < v_block (fst x))%Z) t -> sorted ((e, M) :: t).
  Notation s_add := (s_add F fadd). Notation s_find := (s_find F).
  Lemma s_add_low : forall m e A m' b, s_add m e A = Ok m' -> (b < v_block e)%Z -> Forall (fun x : dv * fm => (b < v_block (fst x))%Z) m -> Forall (fun x => (b < v_block (fst x))%Z) m'.
  Proof.
    induction m as [|(e', M) t IH]; intros e A m' b E L H; cbn in E; [injection E as <-; constructor; auto|]. inversion H; subst. cbn in *.
    destruct (v_block e <? v_block e')%Z; [injection E as <-; constructor; auto|]. destruct (v_block e' <? v_block e)%Z.
    - destruct (s_add t e A) as [t'| |] eqn:Et; try discriminate. injection E as <-. constructor; auto. eapply IH; eauto.
    - destruct (negb _); try discriminate. destruct (_ && _); try discriminate. injection E as <-. constructor; auto.
  Qed.
  Lemma s_add_sorted : forall m e A m', sorted m -> s_add m e A = Ok m' -> sorted m'.
  Proof.
    induction m as [|(e', M) t IH]; intros e A m' S E; cbn in E; [injection E as <-; constructor; [constructor|constructor]|]. inversion S as [|? ? ? St Sl]; subst.
    destruct (Z.ltb_spec (v_block e) (v_block e')).
    - injection E as <-. constructor; auto. constructor; cbn; auto. eapply Forall_impl; [|exact Sl]. cbn. intros; lia.
    - destruct (Z.ltb_spec (v_block e') (v_block e)).
      + destruct (s_add t e A) as [t'| |] eqn:Et; try discriminate. injection E as <-. constructor; [eapply IH; eauto|eapply s_add_low; eauto].
      + destruct (negb _); try discriminate. destruct (_ && _); try discriminate. injection E as <-. constructor; auto.
  Qed.
  Lemma s_find_low : forall m d, Forall (fun x : dv * fm => (v_block d < v_block (fst x))%Z) m -> s_find m d = None.
  Proof. induction m as [|(e, M) t IH]; intros d H; auto. inversion H; subst. cbn in *. destruct (Z.eqb_spec (v_block d) (v_block e)); [lia|auto]. Qed.
  (* what adding does to the entry that is found *)
  Lemma s_add_find : forall m e A m' d, sorted m -> s_add m e A = Ok m' ->
    s_find m' d = if (v_block d =? v_block e)%Z then Some match s_find m d with None => A | Some M => fmadd F fadd M A end else s_find m d.
  Proof.
    induction m as [|(e', M) t IH]; intros e A m' d S E; cbn in E; [injection E as <-; cbn; auto|]. inversion S as [|? ? ? St Sl]; subst.
    destruct (Z.ltb_spec (v_block e) (v_block e')) as [L|L].
    - injection E as <-. cbn [Fin_Model.s_find]. destruct (Z.eqb_spec (v_block d) (v_block e)) as [B|B]; auto. destruct (Z.eqb_spec (v_block d) (v_block e')); [lia|]. rewrite s_find_low; auto. eapply Forall_impl; [|exact Sl]. cbn. intros; lia.
    - destruct (Z.ltb_spec (v_block e') (v_block e)) as [L'|L'].
      + destruct (s_add t e A) as [t'| |] eqn:Et; try discriminate. injection E as <-. cbn [Fin_Model.s_find]. destruct (Z.eqb_spec (v_block d) (v_block e')); [destruct (Z.eqb_spec (v_block d) (v_block e)); [lia|auto]|]. apply IH; auto.
      + destruct (negb _); try discriminate. destruct (_ && _); try discriminate. injection E as <-. cbn [Fin_Model.s_find]. destruct (Z.eqb_spec (v_block d) (v_block e')), (Z.eqb_spec (v_block d) (v_block e)); auto; lia.
  Qed.
  Lemma s_add_dims : forall m e A m' M, sorted m -> s_add m e A = Ok m' -> s_find m e = Some M -> rows M = rows A /\ cols M = cols A.
  Proof.
    induction m as [|(e', M') t IH]; intros e A m' M S E Fm; cbn in E, Fm; [discriminate|]. inversion S as [|? ? ? St Sl]; subst.
    destruct (Z.ltb_spec (v_block e) (v_block e')) as [L|L].
    - destruct (Z.eqb_spec (v_block e) (v_block e')); [lia|]. rewrite s_find_low in Fm; [discriminate|]. eapply Forall_impl; [|exact Sl]. cbn. intros; lia.
    - destruct (Z.ltb_spec (v_block e') (v_block e)) as [L'|L'].
      + destruct (s_add t e A) as [t'| |] eqn:Et; try discriminate. destruct (Z.eqb_spec (v_block e) (v_block e')); [lia|]. eapply IH; eauto.
      + destruct (Z.eqb_spec (v_block e) (v_block e')); [|lia]. injection Fm as <-. destruct (negb _); try discriminate. destruct (Nat.eqb_spec (rows M') (rows A)); try discriminate. destruct (Nat.eqb_spec (cols M') (cols A)); try discriminate. auto.
  Qed.
  Lemma s_find_same : forall m d e, v_block d = v_block e -> s_find m d = s_find m e.
  Proof. induction m as [|(x, M) t IH]; intros d e B; cbn; auto. rewrite B. destruct (v_block e =? v_block x)%Z; auto. Qed.
  Definition sG (d : dv) (m : smap F) : Prop := match s_find m d with None => True | Some M => finite M end.
  Lemma sG_add : forall d s e A s', sorted s -> s_add s e A = Ok s' -> (v_block e = v_block d -> v_dim e = v_dim d /\ v_col e = v_col d /\ cols A = v_dim d) -> sG d s' -> sG d s /\ (v_block e = v_block d -> finite A).
  Proof.
    intros d s e A s' W E Z g. unfold sG in *. rewrite (s_add_find _ _ _ _ d W E) in g. destruct (Z.eqb_spec (v_block d) (v_block e)) as [B|B]; [|split; [exact g|intros B'; congruence]].
    destruct (s_find s d) as [M|] eqn:Fd; [|split; auto]. rewrite (s_find_same _ _ _ B) in Fd. destruct (s_add_dims _ _ _ _ _ W E Fd) as (R & C).
    assert (Q : forall i j, i < rows M -> j < cols M -> fin (at_ M i j) = true /\ fin (at_ A i j) = true) by (intros i j Hi Hj; specialize (g i j Hi Hj); cbn in g; apply fin_add in g; auto).
    split; [intros i j Hi Hj; apply Q; auto|intros _ i j Hi Hj; apply Q; lia].
  Qed.
  Lemma sparse_detects : forall d r ops c, 0 < r -> 0 < v_dim d -> sized d r [] ops -> crun F fz fo fadd fmul (smap F) s_add (s_init F r) ops = Ok c -> s_isFinite F fin (c_store c) d = Ok true -> all_handed d [] ops.
  Proof.
    intros d r ops c R D Z E H. refine (proj2 (run_fin (smap F) s_add d (sG d) sorted _ _ ops (s_init F r) c [] R D E _ _ _ Z _)); [intros; eapply s_add_sorted; eauto|intros; eapply sG_add; eauto|constructor|cbn; auto|constructor|].
    unfold sG. unfold s_isFinite in H. destruct (s_find (c_store c) d) as [M|]; auto. injection H as H. apply allFinite_iff. auto.
  Qed.
  (** the dense container *)
  Definition dG (d : dv) (m : fm) : Prop := d_isFinite F fin m d = Ok true.
  Notation d_add := (d_add F fadd).
  Lemma dG_add : forall d s e A s', True -> d_add s e A = Ok s' -> (v_block e = v_block d -> v_dim e = v_dim d /\ v_col e = v_col d /\ cols A = v_dim d) -> dG d s' -> dG d s /\ (v_block e = v_block d -> finite A).
  Proof.
    intros d s e A s' _ E Z g. unfold dG, d_isFinite, d_block in *. unfold Fin_Model.d_add in E. destruct (Nat.eqb_spec (rows s) (rows A)) as [R|]; try discriminate. cbn [negb] in E.
    destruct ((v_col e <? 0)%Z || (Z.of_nat (cols s) <? v_col e + Z.of_nat (cols A))%Z) eqn:Ec; try discriminate. injection E as <-. cbn [rows cols at_] in g. destruct ((v_col d <? 0)%Z || _) eqn:Ed; try discriminate. cbn [bind] in *.
    assert (Q : finite {| rows := rows s; cols := v_dim d; at_ := fun i j => if (Z.to_nat (v_col e) <=? Z.to_nat (v_col d) + j) && (Z.to_nat (v_col d) + j <? Z.to_nat (v_col e) + cols A) then fadd (at_ s i (Z.to_nat (v_col d) + j)) (at_ A i (Z.to_nat (v_col d) + j - Z.to_nat (v_col e))) else at_ s i (Z.to_nat (v_col d) + j) |}).
    { apply allFinite_iff. injection g as g. exact g. }
    split.
    - f_equal. apply allFinite_iff. intros i j Hi Hj. specialize (Q i j Hi Hj). cbn [rows cols at_] in *. destruct (_ && _); auto. apply fin_add in Q. tauto.
    - intros B. destruct (Z B) as (_ & Cc & Cd). intros i j Hi Hj. specialize (Q i j). cbn [rows cols at_] in Q. rewrite <- Cc in Q. rewrite (proj2 (Nat.leb_le _ _)), (proj2 (Nat.ltb_lt _ _)) in Q by lia. cbn [andb] in Q.
      replace (Z.to_nat (v_col e) + j - Z.to_nat (v_col e)) with j in Q by lia. apply fin_add in Q; [tauto|lia|lia].
  Qed.
  Lemma dense_detects : forall d r n ops c, 0 < r -> 0 < v_dim d -> sized d r [] ops -> crun F fz fo fadd fmul fm d_add (d_init F fz r n) ops = Ok c -> d_isFinite F fin (c_store c) d = Ok true -> all_handed d [] ops.
  Proof.
    intros d r n ops c R D Z E H. refine (proj2 (run_fin fm d_add d (dG d) (fun _ => True) _ _ ops (d_init F fz r n) c [] R D E _ _ _ Z H)); [auto|intros; eapply dG_add; eauto|exact Logic.I|cbn; auto|constructor].
  Qed.
  End Abs.

  (** the loop over the design variables of the expression *)
  Section Loop.
  Variable check : dv -> res bool.
  Lemma u_true : forall l, u_isFinite check l = Ok true <-> forall d, In d l -> v_active d = true -> check d = Ok true.
  Proof.
    induction l as [|d l IH]; cbn; [split; [intros _ d []|auto]|]. destruct (v_active d) eqn:A.
    - destruct (check d) as [[]| |] eqn:C; cbn.
      + rewrite IH. split; [intros H e [<-|I] B; auto|auto].
      + split; [discriminate|]. intros H. rewrite (H d) in C by auto. discriminate.
      + split; [discriminate|]. intros H. rewrite (H d) in C by auto. discriminate.
      + split; [discriminate|]. intros H. rewrite (H d) in C by auto. discriminate.
    - rewrite IH. split; [intros H e [<-|I] B; [congruence|auto]|auto].
  Qed.
  Lemma u_other : forall l r, u_isFinite check l = r -> r <> Ok true -> exists d, In d l /\ v_active d = true /\ check d = r.
  Proof.
    induction l as [|d l IH]; cbn; intros r H N; [congruence|]. destruct (v_active d) eqn:A.
    - destruct (check d) as [[]| |] eqn:C; cbn in H.
      + destruct (IH r H N) as (e & I & E). exists e. auto.
      + exists d. rewrite <- H. auto.
      + exists d. rewrite <- H. auto.
      + exists d. rewrite <- H. auto.
    - destruct (IH r H N) as (e & I & E). exists e. auto.
  Qed.
  Lemma u_order : forall l l', Permutation l l' -> (forall d, In d l -> v_active d = true -> exists b, check d = Ok b) -> u_isFinite check l = u_isFinite check l'.
  Proof.
    intros l l' P T. assert (T' : forall d, In d l' -> v_active d = true -> exists b, check d = Ok b) by (intros d I; apply T; eapply Permutation_in; [apply Permutation_sym; exact P|exact I]).
    assert (B : forall k, (forall d, In d k -> v_active d = true -> exists b, check d = Ok b) -> exists b, u_isFinite check k = Ok b).
    { intros k Tk. destruct (u_isFinite check k) as [b| |] eqn:E; eauto; destruct (u_other k _ E) as (d & I & A & C); try discriminate; destruct (Tk d I A); congruence. }
    destruct (B l T) as (b & E). destruct (B l' T') as (b' & E'). rewrite E, E'. f_equal.
    assert (Q : b = true <-> b' = true).
    { split; intros ->; [rewrite u_true in E|rewrite u_true in E']; [assert (X : u_isFinite check l' = Ok true) by (apply u_true; intros d I; apply E; eapply Permutation_in; [apply Permutation_sym; exact P|exact I]); congruence|].
      assert (X : u_isFinite check l = Ok true) by (apply u_true; intros d I; apply E'; eapply Permutation_in; [exact P|exact I]). congruence. }
    destruct b, b'; auto; [symmetry; apply Q; auto|apply Q; auto].
  Qed.
  End Loop.
End FP.
(* doubles *)
Lemma b64_absorbing : absorbing b64 is_finite Lib_Float.fadd Lib_Float.fmul.
Proof. split; intros a b H; destruct a as [s|s| |s m e p], b as [s'|s'| |s' m' e' p']; cbn in H; try discriminate; cbn; auto; destruct s, s'; discriminate. Qed.
Lemma sparse_missing : forall F fz fo fadd fmul d ops c c', crun F fz fo fadd fmul (smap F) (s_add F fadd) c ops = Ok c' -> sorted F (c_store c) -> sorted F (c_store c') /\
  (s_find F (c_store c') d = None <-> s_find F (c_store c) d = None /\ forallb (fun o => negb (for_dv F d o)) ops = true).
Proof.
  intros F fz fo fadd fmul d. induction ops as [|o ops IH]; intros c c' E S.
  - injection E as <-. cbn. tauto.
  - cbn [crun] in E. destruct (cstep F fz fo fadd fmul (smap F) (s_add F fadd) c o) as [c1| |] eqn:Ec; try discriminate. cbn [bind] in E.
    assert (Q : sorted F (c_store c1) /\ (s_find F (c_store c1) d = None <-> s_find F (c_store c) d = None /\ negb (for_dv F d o) = true)).
    { assert (A : forall e A s, s_add F fadd (c_store c) e A = Ok s -> v_active e = true -> sorted F s /\ (s_find F s d = None <-> s_find F (c_store c) d = None /\ negb (v_active e && (v_block e =? v_block d)%Z) = true)).
      { intros e A s Ea Ae. split; [eapply s_add_sorted; eauto|]. rewrite (s_add_find F fadd _ _ _ _ d S Ea), Ae, Z.eqb_sym. cbn [andb]. destruct (v_block e =? v_block d)%Z; cbn [negb]; [split; [discriminate|intros (_ & ?); discriminate]|tauto]. }
      destruct o as [m|a| |e A0|e]; cbn [cstep for_dv] in *.
      - unfold capply in Ec. destruct (c_stack c); destruct (_ =? _); try discriminate; injection Ec as <-; cbn; tauto.
      - injection Ec as <-. cbn. tauto.
      - unfold cend in Ec. destruct (c_stack c); try discriminate. injection Ec as <-. cbn. tauto.
      - unfold cadd in Ec. destruct (negb (_ =? _)); try discriminate. destruct (v_active e) eqn:Ae; cbn [negb] in Ec; [|injection Ec as <-; cbn; tauto]. destruct (_ <? _)%Z; try discriminate.
        destruct (c_stack c); destruct (_ =? _); try discriminate; destruct (s_add F fadd (c_store c) e _) as [s| |] eqn:Ea in Ec; try discriminate; injection Ec as <-; cbn [c_store]; destruct (A _ _ _ Ea Ae) as (A1 & A2); rewrite Ae in A2; auto.
      - unfold caddId in Ec. destruct (v_active e) eqn:Ae; cbn [negb] in Ec; [|injection Ec as <-; cbn; tauto]. destruct (_ <? _)%Z; try discriminate.
        destruct (s_add F fadd (c_store c) e _) as [s| |] eqn:Ea in Ec; try discriminate; injection Ec as <-; cbn [c_store]; destruct (A _ _ _ Ea Ae) as (A1 & A2); rewrite Ae in A2; auto. }
    destruct Q as (S1 & Q). destruct (IH c1 c' E S1) as (S' & Q'). split; [exact S'|]. rewrite Q', Q. cbn [forallb]. rewrite andb_true_iff. tauto.
Qed.
Lemma sparse_answers : forall F fz fo fadd fmul fin r ops c d, crun F fz fo fadd fmul (smap F) (s_add F fadd) (s_init F r) ops = Ok c ->
  match s_isFinite F fin (c_store c) d with
  | Ok b => exists M, s_find F (c_store c) d = Some M /\ (b = true <-> finite F fin M)
  | Throw => forall o, In o ops -> for_dv F d o = false
  | UB => False
  end.
Proof.
  intros F fz fo fadd fmul fin r ops c d E. unfold s_isFinite. destruct (s_find F (c_store c) d) as [M|] eqn:Fd; [exists M; split; auto; apply allFinite_iff|].
  destruct (sparse_missing F fz fo fadd fmul d ops _ _ E (so_nil F)) as (_ & H). apply H in Fd. destruct Fd as (_ & Fd). rewrite forallb_forall in Fd. intros o I. specialize (Fd o I). destruct (for_dv F d o); auto; discriminate.
Qed.
Lemma sparse_throws : forall F fz fo fadd fmul fin r ops c d, crun F fz fo fadd fmul (smap F) (s_add F fadd) (s_init F r) ops = Ok c -> (forall o, In o ops -> for_dv F d o = false) -> s_isFinite F fin (c_store c) d = Throw.
Proof.
  intros F fz fo fadd fmul fin r ops c d E H. unfold s_isFinite. destruct (sparse_missing F fz fo fadd fmul d ops _ _ E (so_nil F)) as (_ & Q). rewrite (proj2 Q); auto. split; auto. apply forallb_forall. intros o I. rewrite H; auto.
Qed.
Lemma dense_answers : forall F fin (m : fm F) d, (0 <= v_col d)%Z -> (v_col d + Z.of_nat (v_dim d) <= Z.of_nat (cols m))%Z ->
  exists b, d_isFinite F fin m d = Ok b /\ (b = true <-> forall i j, i < rows m -> j < v_dim d -> fin (at_ m i (Z.to_nat (v_col d) + j)) = true).
Proof.
  intros F fin m d L U. unfold d_isFinite, d_block. rewrite (proj2 (Z.ltb_ge _ _)), (proj2 (Z.ltb_ge _ _)) by lia. cbn [orb bind]. eexists. split; [reflexivity|]. rewrite allFinite_iff. reflexivity.
Qed.
Lemma detects_sparse : forall F fz fo fadd fmul fin, absorbing F fin fadd fmul -> forall r ops c dvs, 0 < r -> crun F fz fo fadd fmul (smap F) (s_add F fadd) (s_init F r) ops = Ok c ->
  (forall d, In d dvs -> 0 < v_dim d /\ sized F d r [] ops) -> u_isFinite (s_isFinite F fin (c_store c)) dvs = Ok true -> forall d, In d dvs -> v_active d = true -> all_handed F fin d [] ops.
Proof. intros F fz fo fadd fmul fin ab r ops c dvs R E Z U d I A. destruct (Z d I). eapply (sparse_detects F fz fo fadd fmul fin ab d r ops c); auto. apply (proj1 (u_true _ dvs) U d I A). Qed.
Lemma detects_dense : forall F fz fo fadd fmul fin, absorbing F fin fadd fmul -> forall r n ops c dvs, 0 < r -> crun F fz fo fadd fmul (fm F) (d_add F fadd) (d_init F fz r n) ops = Ok c ->
  (forall d, In d dvs -> 0 < v_dim d /\ sized F d r [] ops) -> u_isFinite (d_isFinite F fin (c_store c)) dvs = Ok true -> forall d, In d dvs -> v_active d = true -> all_handed F fin d [] ops.
Proof. intros F fz fo fadd fmul fin ab r n ops c dvs R E Z U d I A. destruct (Z d I). eapply (dense_detects F fz fo fadd fmul fin ab d r n ops c); auto. apply (proj1 (u_true _ dvs) U d I A). Qed.
Lemma loop_answers : forall check dvs, (u_isFinite check dvs = Ok true <-> forall d, In d dvs -> v_active d = true -> check d = Ok true) /\
  (forall r, u_isFinite check dvs = r -> r <> Ok true -> exists d, In d dvs /\ v_active d = true /\ check d = r).
Proof. intros check dvs. split; [apply u_true|apply u_other]. Qed.
Lemma order_matters : forall check d1 d2, v_active d1 = true -> v_active d2 = true -> check d1 = Ok false -> check d2 = Throw -> u_isFinite check [d1; d2] = Ok false /\ u_isFinite check [d2; d1] = Throw.
Proof. intros check d1 d2 A1 A2 C1 C2. cbn. rewrite A1, A2, C1, C2. auto. Qed.
