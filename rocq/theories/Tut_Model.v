(** * The program of the tutorial: aslam_backend_tutorial/src/example.cpp ("M")

    Real arithmetic; the error terms are those of Terms_Model. The random numbers of sm::random are given. Design variables carry the number of their creation as identity.
    Left out: the text of the usage message, the options (M L113-121) and the optimiser itself (M L123-125), which is modelled elsewhere. *)
From Coq Require Import Arith Lia List ZArith Bool Reals.
From Verif Require Import Lib_Ring Lib_Real Lib_Res MatrixStack_Model DesignVar_Base Jacobian_Model Scalar_Model Terms_Model.
Import ListNotations.
Local Open Scope R_scope.

(* sm::random::uniform() of M L40, normal() of M L47, L66 and L73 *)
Record noise := mkNoise { n_uniform : nat -> R; n_odometry : nat -> R; n_measurement : nat -> R; n_wall : R }.
(* M L29-34 *)
Definition true_w : R := -5.
(* same code: M L29-34 *)
Definition sigma_n : R := 1 / 100.
(* same code: M L29-34 *)
Definition sigma_u : R := 1 / 10.
(* same code: M L29-34 *)
Definition sigma_x : R := 1 / 100.

(* std::vector<double>(K): M L37, L44, L51-52, L63; a negative K becomes a size beyond max_size() *)
Definition vector_new (K : Z) : res (list R) := if (K <? 0)%Z then Throw else Ok (repeat 0 (Z.to_nat K)).
(* operator[] does not check *)
(* same code: std::vector, M L37, L44, L51-52, L63 *)
Definition at_ (v : list R) (k : nat) : res R := match nth_error v k with Some x => Ok x | None => UB end.
(* same code: std::vector, M L37, L44, L51-52, L63 *)
Fixpoint set_nth (v : list R) (k : nat) (x : R) : list R := match v, k with [], _ => [] | _ :: v', O => x :: v' | y :: v', S k' => y :: set_nth v' k' x end.
(* same code: std::vector, M L37, L44, L51-52, L63 *)
Definition put (v : list R) (k : nat) (x : R) : res (list R) := if (k <? length v)%nat then Ok (set_nth v k x) else UB.
(* for(int k = a; k < b; ++k) with n = b - a rounds *)
(* same code: std::vector, M L37, L44, L51-52, L63 *)
Fixpoint for_ {A : Type} (n a : nat) (body : nat -> A -> res A) (x : A) : res A := match n with O => Ok x | S n' => do y <- body a x; for_ n' (S a) body y end.

(* the error terms: example.cpp L87, L100, L104 *)
Inductive term := TPrior (x : dvr) (hat_x sigma2 : R) | TMotion (x_k x_kp1 : dvr) (u sigma2 : R) | TObservation (x_k w : dvr) (y sigma2 : R).
(* same code: example.cpp L87, L100, L104 *)
Definition term_error (t : term) (s : state) : res R := match t with TPrior x h _ => prior_error x h s | TMotion a b u _ => motion_error a b u s | TObservation x w y _ => observation_error x w y s end.  (* Terms_Model *)
(* same code: example.cpp L87, L100, L104 *)
Definition term_calls (t : term) (s : state) : res (list (@cop R)) := match t with TPrior x _ _ => prior_calls x s | TMotion a b _ _ => motion_calls a b s | TObservation x w _ _ => observation_calls x w s end.  (* Terms_Model *)
(* same code: example.cpp L87, L100, L104 *)
Definition term_sigma2 (t : term) : R := match t with TPrior _ _ s2 | TMotion _ _ _ s2 | TObservation _ _ _ s2 => s2 end.
Definition term_dvs (t : term) : list dvr := match t with TPrior x _ _ => [x] | TMotion a b _ _ => [a; b] | TObservation x w _ _ => [x; w] end.  (* ErrorTermPrior.cpp L14, ErrorTermMotion.cpp L16, ErrorTermObservation.cpp L16 *)
(* evaluateError: the squared error *)
(* same code: ErrorTermPrior.cpp L14, ErrorTermMotion.cpp L16, ErrorTermObservation.cpp L16 *)
Definition term_cost (t : term) (s : state) : res R := do e <- term_error t s; chi_squared (term_sigma2 t) e.

(* OptimizationProblem: addDesignVariable (M L77, L84, L97), addErrorTerm (M L89, L101, L105); p_start is the value each variable was created with *)
Record problem := mkProblem { p_dvs : list dvr; p_start : state; p_terms : list term }.
(* ScalarDesignVariable(initialValue) and setActive(true): M L73-75, L80-82, L95-96; block and column index are those that Optimizer::initialize assigns later, all
   variables being active, scalar and in the order of their creation *)
Definition new_dv (p : problem) : dvr := let i := length (p_dvs p) in mkDv i true (Z.of_nat i) (Z.of_nat i) 1 1.
(* same code: M L73-75, L80-82, L95-96 *)
Definition add_dv (p : problem) (initialValue : R) : problem :=
  mkProblem (p_dvs p ++ [new_dv p]) (fun i k => if (i =? dv_id (new_dv p))%nat then initialValue else p_start p i k) (p_terms p).
(* same code: M L73-75, L80-82, L95-96 *)
Definition add_term (p : problem) (t : term) : problem := mkProblem (p_dvs p) (p_start p) (p_terms p ++ [t]).

(* M L26-111: up to the complete problem *)
Definition build (nz : noise) (K : Z) : res problem :=
  let n := Z.to_nat K in
  do true_u_k <- vector_new K;                                                                                                 (* L37 *)
  do true_u_k <- for_ n 0 (fun k v => put v k (n_uniform nz k)) true_u_k;                                                      (* L38-41 *)
  do u_k <- vector_new K;                                                                                                      (* L44 *)
  do u_k <- for_ n 0 (fun k v => do tu <- at_ true_u_k k; put v k (tu + sigma_u * n_odometry nz k)) u_k;                       (* L45-48 *)
  do x_k <- vector_new K;                                                                                                      (* L51 *)
  do true_x_k <- vector_new K;                                                                                                 (* L52 *)
  do x_k <- put x_k 0 0;                                                                                                       (* L53 *)
  do true_x_k <- put true_x_k 0 0;                                                                                             (* L54 *)
  do xs <- for_ (n - 1) 1 (fun k xs =>                                                                                         (* L55-59 *)
    do t <- at_ (snd xs) (k - 1); do tu <- at_ true_u_k k; do true_x_k <- put (snd xs) k (t + tu);
    do x <- at_ (fst xs) (k - 1); do u <- at_ u_k k; do x_k <- put (fst xs) k (x + u); Ok (x_k, true_x_k)) (x_k, true_x_k);
  let x_k := fst xs in let true_x_k := snd xs in
  do y_k <- vector_new K;                                                                                                      (* L63 *)
  do y_k <- for_ n 0 (fun k v => do t <- at_ true_x_k k; do q <- fdiv 1 (true_w - t); put v k (q + sigma_n * n_measurement nz k)) y_k;   (* L64-67 *)
  let p := mkProblem [] (fun _ _ => 0) [] in                                                                                   (* L70 *)
  let dv_w := new_dv p in let p := add_dv p (true_w + n_wall nz) in                                                            (* L73-77 *)
  do x0 <- at_ x_k 0; let dv_x_km1 := new_dv p in let p := add_dv p x0 in                                                      (* L80-84 *)
  do t0 <- at_ true_x_k 0; let p := add_term p (TPrior dv_x_km1 t0 (sigma_x * sigma_x)) in                                     (* L87-89 *)
  do r <- for_ (n - 1) 1 (fun k pd =>                                                                                          (* L93-109 *)
    let p := fst pd in let dv_x_km1 := snd pd in
    do x <- at_ x_k k; let dv_x_k := new_dv p in let p := add_dv p x in
    do u <- at_ u_k k; let p := add_term p (TMotion dv_x_km1 dv_x_k u (sigma_u * sigma_u)) in
    do y <- at_ y_k k; let p := add_term p (TObservation dv_x_k dv_w y (sigma_n * sigma_n)) in
    Ok (p, dv_x_k)) (p, dv_x_km1);
  Ok (fst r).
(* M L17-22, L24, L129-133: with the argument K, or another number of arguments; the optimiser is called with a problem, or the program ends with a status *)
Inductive outcome := Optimise (p : problem) | Ends (status : Z).
(* same code: M L17-22, L24, L129-133 *)
Definition main (argc : Z) (K : Z) (nz : noise) : res outcome :=
  if negb (argc =? 2)%Z then Ok (Ends 1)
  else match build nz K with Ok p => Ok (Optimise p) | Throw => Ok (Ends 1) | UB => UB end.
