(** * The marginalizer

    aslam_backend/src/Marginalizer.cpp ("M") and MarginalizationPriorErrorTerm.cpp ("P"). The error terms are those of LinSolve_Model; their Jacobians are
    given with the block indices that marginalize assigns. Eigen's QR decomposition and inverse are parameters. Not modelled: the rank (only a
    warning depends on it), outDesignVariablesInRTop, timers, int overflow. *)
From Coq Require Import Arith Lia List ZArith Bool.
From Verif Require Import Lib_Ring Lib_Res SBM_Model LinSolve_Model.
Import ListNotations.

Section Marg.
  Context {K : Type} {R : CRing K}.

  (* a design variable: which object, blockIndex(), columnBase(), minimalDimensions() *)
  (* DesignVariable.hpp L56-89 *)
  Record mdv := mkMdv { v_id : nat; v_block : Z; v_col : Z; v_dim : nat }.
  (* an error term: which object, rowBase(), and what it contributes *)
  (* ErrorTerm.hpp L135-141 *)
  Record met := mkMet { t_id : nat; t_row : nat; t_term : lterm K }.
  (* in the model only: memory *)
  Record world := mkWorld { w_dvs : list mdv; w_ets : list met }.

  (* the insertion into a set fails for the second copy: M L38-49 *)
  Fixpoint distinct (l : list nat) : bool := match l with [] => true | x :: l' => negb (existsb (Nat.eqb x) l') && distinct l' end.
  (* M L79-87: block indices and columns in the order of the list *)
  Fixpoint assign (i col : nat) (dvs : list mdv) : list mdv :=
    match dvs with [] => [] | d :: ds => mkMdv (v_id d) (Z.of_nat i) (Z.of_nat col) (v_dim d) :: assign (S i) (col + v_dim d) ds end.
  (* M L89-96 *)
  Fixpoint assign_rows (row : nat) (ets : list met) : list met :=
    match ets with [] => [] | t :: ts => mkMet (t_id t) row (t_term t) :: assign_rows (row + lt_dim (t_term t)) ts end.
  (* M L188-196: the stored values are put back *)
  Fixpoint restore (old dvs : list mdv) : list mdv :=
    match old, dvs with o :: os, d :: ds => mkMdv (v_id d) (v_block o) (v_col o) (v_dim d) :: restore os ds | _, _ => [] end.
  (* same code: M L188-196 *)
  Fixpoint restore_rows (old ets : list met) : list met :=
    match old, ets with o :: os, t :: ts => mkMet (t_id t) (t_row o) (t_term t) :: restore_rows os ts | _, _ => [] end.
  (* the columns of the Jacobian as a block layout: the ends of the design variables *)
  (* same code: M L188-196 *)
  Fixpoint ends (a : nat) (dims : list nat) : list nat := match dims with [] => [] | d :: ds => (a + d) :: ends (a + d) ds end.

  (* Eigen::HouseholderQR: householderQ and matrixQR *)
  Variable qr : nat -> nat -> mat K -> mat K * mat K.
  (* FullPivLU::inverse *)
  Variable inverse : nat -> mat K -> mat K.

  (* _R, _d, and the number of rows and columns of _R (P L17-40) *)
  Record prior := mkPrior { p_R : mat K; p_d : vec K; p_dim : nat; p_dvs : list mdv }.

  (* M L23-199: the world afterwards, and the prior with outCov; None: an exception *)
  Definition marginalize (w : world) (remove : Z) (numTop : nat) : res (world * option (prior * mat K)) :=
    if negb (distinct (map v_id (w_dvs w))) || negb (distinct (map t_id (w_ets w))) then Ok (w, None)
    else
      let k := Z.to_nat remove in
      let m := list_sum (map v_dim (firstn k (w_dvs w))) in
      let remaining := skipn k (w_dvs w) in
      let w1 := mkWorld (assign 0 0 (w_dvs w)) (assign_rows 0 (w_ets w)) in
      let ts := map t_term (w_ets w) in
      let l := ends 0 (map v_dim (w_dvs w)) in
      let rows := jrows ts in let cols := total l in
      (* L99-106 *)
      let S := dq_build l ts (eval_errors ts 0 (fun _ => k0)) (dq_new rows cols (fun _ => k0) false) in
      let J := dq_J S in let b := dq_e S in
      if rows <? cols then Ok (w1, None)
      else
        let Q := fst (qr rows cols J) in let F := snd (qr rows cols J) in
        let Rm : mat K := fun r c => if r <=? c then F r c else k0 in
        let d := mvmul rows (mtr Q) b in
        (* L155-163: a block outside of the matrix is undefined; the checks L169-170 come too late *)
        if (0 <? numTop) && (cols <? numTop) then UB
        else
          let X := inverse cols Rm in
          let cov := mmul cols X (mtr X) in
          (* P L21: no remaining design variable *)
          match remaining with
          | [] => Ok (w1, None)
          | _ => Ok (mkWorld (restore (w_dvs w) (w_dvs w1)) (restore_rows (w_ets w) (w_ets w1)),
                     Some (mkPrior (fun i j => Rm (m + i) (m + j)) (fun i => d (m + i)) (cols - m) remaining, cov))
          end.

  (* P L62-83: the minimal differences of the design variables, one after the other, in a vector of p_dim elements; writing past it is undefined *)
  Fixpoint assemble (diffs : list (nat * vec K)) (index size : nat) (y : vec K) : res (vec K) :=
    match diffs with
    | [] => Ok y
    | (n, v) :: ds => if index + n <=? size then assemble ds (index + n) size (fun i => if (index <=? i) && (i <? index + n) then v (i - index) else y i) else UB
    end.
  (* evaluateErrorImplementation P L46-58; the square root of the identity is the identity, so the squared error is the sum of squares *)
  Definition prior_error (p : prior) (diffs : list (nat * vec K)) : res (vec K) :=
    do y <- assemble diffs 0 (p_dim p) (fun _ => k0); Ok (fun i => kopp (ksub (p_d p i) (mvmul (p_dim p) (p_R p) y i))).
  (* same code: P L46-58 *)
  Definition prior_cost (p : prior) (diffs : list (nat * vec K)) : res K := do e <- prior_error p diffs; Ok (vdot (p_dim p) e e).
  (* evaluateJacobiansImplementation P L85-101: for each design variable its dimension and M, the block of R times M *)
  Fixpoint prior_jacobians (p : prior) (col : nat) (Ms : list (nat * mat K)) : list (mat K) :=
    match Ms with
    | [] => []
    | (n, M) :: Ms' => mmul n (fun i j => p_R p i (col + j)) M :: prior_jacobians p (col + n) Ms'
    end.
End Marg.
Arguments world K : clear implicits. Arguments met K : clear implicits. Arguments prior K : clear implicits.
