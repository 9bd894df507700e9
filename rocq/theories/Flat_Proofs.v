(** * Proofs about the flattened parameter vector *)
From Coq Require Import Arith Lia List Bool Reals Lra.
From Verif Require Import Lib_Ring Lib_Real Lib_Res Flat_Model Flat_Spec.
Import ListNotations.
Local Open Scope nat_scope.

Section P.
Context {K : Type} {RK : CRing K}.
Notation cells := (list (cell K)).
Lemma loop_spec : forall get (dvs : list (fdv K)) mn cnt v, (forall d, In d dvs -> length (get d) = f_size d) -> length v = Nat.max mn cnt ->
  exists rest, flatten_loop get mn cnt v dvs = Ok (firstn cnt v ++ concat (map get dvs) ++ rest) /\ length rest = mn - (cnt + list_sum (map f_size dvs)).
Proof.
  induction dvs as [|d r IH]; intros mn cnt v L V; cbn [flatten_loop map concat].
  - exists (skipn cnt v). split; [cbn; rewrite firstn_skipn; reflexivity|]. rewrite skipn_length. cbn. lia.
  - assert (Ld : length (get d) = f_size d) by (apply L; left; auto).
    set (v1 := if mn <? cnt + f_size d then conservativeResize (cnt + f_size d) v else v).
    assert (V1 : length v1 = Nat.max mn (cnt + f_size d) /\ firstn cnt v1 = firstn cnt v).
    { unfold v1. destruct (Nat.ltb_spec mn (cnt + f_size d)) as [H|H].
      - unfold conservativeResize. rewrite app_length, firstn_length, repeat_length. split; [lia|]. rewrite firstn_app, firstn_firstn, firstn_length.
        replace (cnt - Nat.min (cnt + f_size d) (length v)) with 0 by lia. replace (Nat.min cnt (cnt + f_size d)) with cnt by lia. cbn. apply app_nil_r.
      - split; [lia|reflexivity]. }
    destruct V1 as [V1 F1]. unfold set_segment. rewrite Ld. destruct (Nat.leb_spec (cnt + f_size d) (length v1)) as [H|H]; [|lia]. cbn [bind].
    set (v2 := firstn cnt v1 ++ get d ++ skipn (cnt + f_size d) v1).
    assert (Fl : length (firstn cnt v1) = cnt) by (rewrite firstn_length; lia).
    assert (V2 : length v2 = Nat.max mn (cnt + f_size d)) by (unfold v2; rewrite !app_length, skipn_length, Fl, Ld; lia).
    destruct (IH mn (cnt + f_size d) v2 (fun x Hx => L x (or_intror Hx)) V2) as (rest & E & R). exists rest. rewrite E. split; [|cbn [map list_sum fold_right]; rewrite R; unfold list_sum; lia].
    f_equal. assert (F2 : firstn (cnt + f_size d) v2 = firstn cnt v ++ get d).
    { unfold v2. rewrite app_assoc, <- F1. rewrite firstn_app, app_length, Fl, Ld, Nat.sub_diag, firstn_O, app_nil_r. apply firstn_all2. rewrite app_length, Fl, Ld. auto. }
    rewrite F2, <- !app_assoc. reflexivity.
Qed.

Lemma sizes_eq : forall dvs : list (fdv K), Forall well_shaped dvs -> list_sum (map f_size dvs) = length (all_parameters dvs).
Proof. induction dvs as [|d r IH]; intros W; [reflexivity|]. inversion W; subst. unfold all_parameters in *. cbn. rewrite app_length, <- IH by auto. unfold well_shaped in *. unfold f_size at 1. unfold list_sum. lia. Qed.
Lemma resize_length : forall n (v : cells), length (resize n v) = n.
Proof. intros n v. unfold resize. destruct (Nat.eqb_spec (length v) n); auto. apply repeat_length. Qed.
Lemma utils_general : forall (dvs : list (fdv K)) v, Forall well_shaped dvs ->
  exists rest, flatten_utils dvs v = Ok (map Some (all_parameters dvs) ++ rest) /\ length rest = list_sum (map f_min dvs) - length (all_parameters dvs).
Proof.
  intros dvs v W. destruct (loop_spec get_utils dvs (numParametersMin dvs) 0 (resize (numParametersMin dvs) v)) as (rest & E & R).
  - intros d H. unfold get_utils. rewrite map_length. rewrite Forall_forall in W. apply (W d H).
  - rewrite resize_length. lia.
  - rewrite sizes_eq in R by auto. exists rest. unfold flatten_utils. rewrite E. split; [|exact R]. cbn [firstn app]. unfold all_parameters, get_utils. rewrite concat_map, map_map. reflexivity.
Qed.
Lemma min_le : forall dvs : list (fdv K), Forall (fun d => f_min d <= length (f_par d)) dvs -> list_sum (map f_min dvs) <= length (all_parameters dvs).
Proof. induction dvs as [|d r IH]; intros M; [cbn; auto|]. inversion M; subst. specialize (IH H2). unfold all_parameters in *. cbn. rewrite app_length. unfold list_sum in IH. lia. Qed.
Lemma utils_flat : forall (dvs : list (fdv K)) v, Forall well_shaped dvs -> Forall (fun d => f_min d <= length (f_par d)) dvs -> flatten_utils dvs v = Ok (map Some (all_parameters dvs)).
Proof.
  intros dvs v W M. destruct (utils_general dvs v W) as (rest & E & R). pose proof (min_le dvs M) as H. destruct rest; [|cbn in R; lia]. rewrite E, app_nil_r. reflexivity.
Qed.
Lemma nth_map_seq : forall (l : list K) n r, r <= length l -> map (fun i => if i <? r then nth i (map Some l) None else None) (seq 0 n) = firstn n (map Some (firstn r l)) ++ repeat None (n - r).
Proof.
  intros l n r Hr. apply (nth_ext _ _ None None).
  - rewrite map_length, seq_length, app_length, firstn_length, map_length, firstn_length, repeat_length. lia.
  - intros i Hi. rewrite map_length, seq_length in Hi.
    rewrite (nth_indep _ None ((fun i => if i <? r then nth i (map Some l) None else None) 0)) by (rewrite map_length, seq_length; auto).
    rewrite (map_nth (fun i => if i <? r then nth i (map Some l) None else None) (seq 0 n) 0 i), seq_nth by auto. cbn [Nat.add].
    destruct (Nat.ltb_spec i r) as [H|H].
    + rewrite app_nth1 by (rewrite firstn_length, map_length, firstn_length; lia).
      assert (G : forall (x : list (option K)) m, i < m -> nth i (firstn m x) None = nth i x None).
      { clear. intros x m. revert i x. induction m as [|m IH]; intros i x H; [lia|]. destruct x, i; cbn; auto. apply IH. lia. }
      rewrite G by auto. rewrite <- firstn_map. rewrite G by auto. reflexivity.
    + rewrite app_nth2 by (rewrite firstn_length, map_length, firstn_length; lia). symmetry. apply nth_repeat.
Qed.
Lemma manager_get : forall d : fdv K, well_shaped d -> get_manager d = map Some (firstn (f_rows d) (f_par d)) ++ repeat None (f_size d - f_rows d).
Proof.
  intros d W. unfold well_shaped in W. unfold get_manager, conservativeResizeM, f_size. set (r := f_rows d) in *. set (c := f_cols d) in *.
  destruct (Nat.eqb_spec r (r * c)) as [E|E].
  - unfold conservativeResize. rewrite <- E, Nat.mul_1_r, map_length, W, <- E, !Nat.sub_diag. cbn. rewrite !app_nil_r. apply firstn_map.
  - cbn [seq flat_map]. rewrite app_nil_r. destruct c as [|c'].
    + rewrite Nat.mul_0_r in *. destruct (f_par d); [|discriminate]. rewrite firstn_nil. reflexivity.
    + destruct r as [|r']; [exfalso; apply E; reflexivity|]. set (q := S r') in *.
      replace (Nat.min q (q * S c')) with q by (rewrite Nat.mul_succ_r; lia). replace (Nat.min (S c') 1) with 1 by lia.
      transitivity (map (fun i => if i <? q then nth i (map Some (f_par d)) None else None) (seq 0 (q * S c'))).
      { apply map_ext. intros i. cbn [Nat.ltb Nat.leb]. rewrite andb_true_r. reflexivity. }
      rewrite nth_map_seq by (rewrite W, Nat.mul_succ_r; lia). f_equal. apply firstn_all2. rewrite map_length, firstn_length. rewrite Nat.mul_succ_r. lia.
Qed.
Lemma manager_len : forall d : fdv K, well_shaped d -> length (get_manager d) = f_size d.
Proof.
  intros d W. rewrite manager_get by auto. rewrite app_length, map_length, firstn_length, repeat_length. unfold well_shaped, f_size in *. rewrite W. destruct (f_cols d); [lia|]. rewrite Nat.mul_succ_r. lia.
Qed.
Lemma manager_general : forall dvs : list (fdv K), Forall well_shaped dvs -> Forall (fun d => f_min d <= length (f_par d)) dvs ->
  flatten_manager dvs = Ok (concat (map (fun d => map Some (firstn (f_rows d) (f_par d)) ++ repeat None (f_rows d * f_cols d - f_rows d)) dvs)).
Proof.
  intros dvs W M. destruct (loop_spec get_manager dvs (numParametersMin dvs) 0 (repeat None (numParametersMin dvs))) as (rest & E & R).
  - intros d H. apply manager_len. rewrite Forall_forall in W. apply (W d H).
  - rewrite repeat_length. lia.
  - unfold flatten_manager. rewrite E. rewrite sizes_eq in R by auto. pose proof (min_le dvs M) as H. unfold numParametersMin in R. destruct rest; [|cbn in R; lia].
    rewrite app_nil_r. cbn [firstn app]. f_equal. f_equal. apply map_ext_in. intros d Hd. apply manager_get. rewrite Forall_forall in W. apply (W d Hd).
Qed.
Lemma manager_flat : forall dvs : list (fdv K), Forall well_shaped dvs -> Forall (fun d => f_min d <= length (f_par d)) dvs -> Forall (fun d => f_cols d <= 1) dvs -> flatten_manager dvs = Ok (map Some (all_parameters dvs)).
Proof.
  intros dvs W M C. rewrite manager_general by auto. f_equal. unfold all_parameters. rewrite concat_map, map_map. f_equal. apply map_ext_in. intros d Hd.
  rewrite Forall_forall in W, C. specialize (W d Hd). specialize (C d Hd). unfold well_shaped in W. assert (E : f_rows d * f_cols d - f_rows d = 0) by (destruct (f_cols d) as [|[|?]]; lia).
  rewrite E. cbn. rewrite app_nil_r. f_equal. apply firstn_all2. rewrite W. destruct (f_cols d) as [|[|?]]; lia.
Qed.

Lemma update_slices : forall upd (dvs : list (fdv K)) dx st, st + list_sum (map f_min dvs) <= length dx ->
  exists dvs', apply_update upd st dvs dx = Ok dvs' /\ length dvs' = length dvs /\
    forall k d, nth_error dvs k = Some d -> nth_error dvs' k = Some (upd d (map (fun x => kmul x (f_scale d)) (firstn (f_min d) (skipn (st + list_sum (map f_min (firstn k dvs))) dx)))).
Proof.
  induction dvs as [|d r IH]; intros dx st H; cbn [apply_update].
  - exists []. split; [reflexivity|]. split; [reflexivity|]. intros [|k] d E; discriminate.
  - cbn in H. destruct (Nat.leb_spec (st + f_min d) (length dx)) as [L|L]; [|unfold list_sum in H; lia]. destruct (IH dx (st + f_min d)) as (r' & E & Ln & N); [unfold list_sum in *; lia|].
    rewrite E. cbn [bind]. eexists. split; [reflexivity|]. split; [cbn; lia|]. intros [|k] x Hx.
    + cbn in Hx. injection Hx as <-. cbn. rewrite Nat.add_0_r. reflexivity.
    + cbn in Hx. cbn [nth_error]. rewrite (N k x Hx). cbn [firstn map list_sum fold_right]. unfold list_sum. rewrite Nat.add_assoc. reflexivity.
Qed.
(* p + x * s, entry by entry *)
Lemma update_moves : forall (dvs : list (fdv K)) dx st, Forall vector_space dvs -> length dx = st + list_sum (map f_min dvs) ->
  exists dvs', apply_update vec_update st dvs dx = Ok dvs' /\ Forall vector_space dvs' /\ length (all_parameters dvs') = length (all_parameters dvs) /\
    forall k, k < length (all_parameters dvs) -> nth k (all_parameters dvs') k0 = kadd (nth k (all_parameters dvs) k0) (kmul (nth (st + k) dx k0) (nth k (all_scalings dvs) k0)).
Proof.
  induction dvs as [|d r IH]; intros dx st V H; cbn [apply_update].
  - exists []. split; [reflexivity|]. split; [constructor|]. split; [reflexivity|]. intros k Hk. cbn in Hk. lia.
  - inversion V as [|? ? Vd Vr]; subst. cbn in H. destruct (Nat.leb_spec (st + f_min d) (length dx)) as [L|L]; [|unfold list_sum in H; lia].
    destruct (IH dx (st + f_min d) Vr) as (r' & E & Vr' & Ln & N); [unfold list_sum in *; lia|]. rewrite E. cbn [bind]. destruct Vd as (C & Rw & P).
    set (dS := map (fun x => kmul x (f_scale d)) (firstn (f_min d) (skipn st dx))).
    assert (LS : length dS = f_min d) by (unfold dS; rewrite map_length, firstn_length, skipn_length; lia).
    assert (LP : length (f_par (vec_update d dS)) = f_min d) by (cbn; rewrite map_length, combine_length; lia).
    eexists. split; [reflexivity|]. split; [constructor; [repeat split; auto|auto]|].
    unfold all_parameters, all_scalings in *. cbn [map concat]. rewrite !app_length. split; [lia|]. intros k Hk. destruct (Nat.ltb_spec k (f_min d)) as [G|G].
    + rewrite !app_nth1 by (rewrite ?repeat_length; lia). rewrite (nth_indep _ k0 (kadd k0 k0)) by lia. cbn [f_par vec_update].
      change (kadd k0 k0) with ((fun xy : K * K => kadd (fst xy) (snd xy)) (k0, k0)). rewrite map_nth, combine_nth by lia. cbn [fst snd]. f_equal.
      rewrite (nth_indep dS k0 (kmul k0 (f_scale d))) by lia. unfold dS. change (kmul k0 (f_scale d)) with ((fun x => kmul x (f_scale d)) k0). rewrite map_nth.
      f_equal; [|symmetry; rewrite (nth_indep _ k0 (f_scale d)) by (rewrite repeat_length; lia); apply nth_repeat].
      transitivity (nth k (skipn st dx) k0).
      * rewrite <- (firstn_skipn (f_min d) (skipn st dx)) at 2. rewrite app_nth1; [reflexivity|]. rewrite firstn_length, skipn_length. lia.
      * rewrite <- (firstn_skipn st dx) at 2. rewrite app_nth2 by (rewrite firstn_length; lia). f_equal. rewrite firstn_length. lia.
    + rewrite !app_nth2 by (rewrite ?repeat_length; lia). rewrite repeat_length, LP, P. rewrite N by lia. f_equal. f_equal. f_equal. lia.
Qed.
Lemma vs_shape : forall dvs : list (fdv K), Forall vector_space dvs -> Forall well_shaped dvs /\ Forall (fun d => f_min d <= length (f_par d)) dvs /\ Forall (fun d => f_cols d <= 1) dvs.
Proof. intros dvs V. repeat split; eapply Forall_impl; try exact V; intros d (A & B & C); unfold well_shaped; rewrite ?A; try lia. Qed.
End P.

Lemma max_spec : forall (a b : list R), length a = length b -> a <> [] ->
  exists m, max_change (map Some a) (map Some b) = Ok m /\ (forall k, k < length a -> (Rabs (nth k a 0 - nth k b 0) <= m)%R) /\ exists k, k < length a /\ (Rabs (nth k a 0 - nth k b 0) = m)%R.
Proof.
  induction a as [|x a IH]; intros b L N; [contradiction|]. destruct b as [|y b]; [discriminate|]. destruct a as [|x' a].
  - destruct b; [|discriminate]. exists (Rabs (x - y)). split; [reflexivity|]. split; [intros [|k] H; cbn in *; [apply Rle_refl|lia]|]. exists 0. split; [cbn; lia|reflexivity].
  - destruct b as [|y' b]; [discriminate|]. destruct (IH (y' :: b)) as (m & E & U & k & Hk & A); [cbn in *; lia|discriminate|].
    exists (Rmax (Rabs (x - y)) m). split; [|split].
    + change (max_change (map Some (x :: x' :: a)) (map Some (y :: y' :: b))) with (do m <- max_change (map Some (x' :: a)) (map Some (y' :: b)); Ok (Rmax (Rabs (x - y)) m)). rewrite E. reflexivity.
    + intros [|j] Hj; [apply Rmax_l|]. eapply Rle_trans; [apply (U j); cbn in *; lia|apply Rmax_r].
    + unfold Rmax. destruct Rle_dec; [exists (S k); split; [cbn in *; lia|exact A]|exists 0; split; [cbn; lia|reflexivity]].
Qed.
Lemma max_step : forall (dvs : list (fdv R)) dx, Forall vector_space dvs -> all_parameters dvs <> [] -> length dx = list_sum (map f_min dvs) ->
  exists dvs' m, apply_update vec_update 0 dvs dx = Ok dvs' /\ maxDeltaX dvs dvs' = Ok m /\
    (forall k, k < length dx -> (Rabs (nth k dx 0 * nth k (all_scalings dvs) 0) <= m)%R) /\ exists k, k < length dx /\ (Rabs (nth k dx 0 * nth k (all_scalings dvs) 0) = m)%R.
Proof.
  intros dvs dx V N L. destruct (update_moves dvs dx 0 V L) as (dvs' & E & V' & Ln & M). destruct (vs_shape dvs V) as (W & Mn & C). destruct (vs_shape dvs' V') as (W' & Mn' & C').
  destruct (max_spec (all_parameters dvs') (all_parameters dvs)) as (m & Em & U & k & Hk & A); [auto|intros Z; rewrite Z in Ln; destruct (all_parameters dvs); [contradiction|discriminate]|].
  assert (Lx : length dx = length (all_parameters dvs)). { rewrite L, <- sizes_eq by auto. f_equal. apply map_ext_in. intros d Hd. rewrite Forall_forall in V. destruct (V d Hd) as (Q1 & Q2 & _). unfold f_size. lia. }
  assert (D : forall k, k < length dx -> (nth k (all_parameters dvs') 0 - nth k (all_parameters dvs) 0 = nth k dx 0 * nth k (all_scalings dvs) 0)%R).
  { intros j Hj. rewrite Lx in Hj. specialize (M j Hj). cbn [kadd kmul k0 RRing Nat.add] in M. rewrite M. lra. }
  exists dvs', m. split; [exact E|]. split; [unfold maxDeltaX; rewrite !manager_flat by auto; exact Em|]. rewrite Ln in *. rewrite <- Lx in *. split.
  - intros j Hj. rewrite <- D by auto. apply U; auto.
  - exists k. split; auto. rewrite <- D by auto. exact A.
Qed.
