(** * Configuration: option classes, property trees, setters and serialization (C83)

    Numbers are real; the comparison macros SM_ASSERT_* and sm::PropertyTree are not in
    the repository.  Taken for granted: SM_ASSERT_X throws exactly when the comparison
    fails, and get...(key, default) returns the default when the key is absent, the
    converted value when it is there, and throws when it cannot be converted. *)
From Coq Require Import String Ascii ZArith Reals List Bool.
From Verif Require Import Lib_Res.
Import ListNotations.
Local Open Scope string_scope.
Local Open Scope R_scope.

(* sm::PropertyTree (used in aslam_backend/src/OptimizerBase.cpp:25-36): what is stored under a key, by the type asked for; None = the conversion fails *)
Record entry : Type := mkEntry { as_double : option R; as_int : option Z; as_bool : option bool }.
(* sm::PropertyTree (aslam_backend/src/OptimizerBase.cpp:25): the keys present with their entries *)
Definition tree : Type := string -> option entry.
(* config.get...(key, default) as called in aslam_backend/src/OptimizerBase.cpp:27-32 *)
Definition get {A} (cv : entry -> option A) (t : tree) (k : string) (d : A) : res A :=
  match t k with None => Ok d | Some e => match cv e with Some x => Ok x | None => Throw end end.
(* sm::PropertyTree(config, "linesearch") in aslam_backend/src/OptimizerBFGS.cpp:27 *)
Definition subtree (t : tree) (ns : string) : tree := fun k => t (ns ++ "/" ++ k).
(* the conversion of the int of getInt to std::size_t, aslam_backend/src/OptimizerBase.cpp:31-32 *)
Definition size_of_int (z : Z) : Z := (z mod 2 ^ 64)%Z.
(* the conversion of the double of getDouble to std::size_t, aslam_backend/src/SamplerHybridMcmc.cpp:35; undefined when the integer part does not fit *)
Definition size_of_double (x : R) : res Z :=
  if Rlt_dec (-1) x then if Rlt_dec x (IZR (2 ^ 64)) then Ok (if Rlt_dec x 0 then 0%Z else Int_part x) else UB else UB.
(* SM_ASSERT_TRUE(Exception, ...) as in aslam_backend/src/OptimizerBase.cpp:42 *)
Definition assert (b : bool) : res unit := if b then Ok tt else Throw.
(* SM_ASSERT_GE, SM_ASSERT_LE as in aslam_backend/src/OptimizerBase.cpp:39 *)
Definition ge (a b : R) : bool := if Rle_dec b a then true else false.
(* SM_ASSERT_GT as in aslam_backend/src/OptimizerRprop.cpp:32 *)
Definition gt (a b : R) : bool := if Rlt_dec b a then true else false.

(** ** OptimizerOptionsBase *)

(* OptimizerOptionsBase, aslam_backend/include/aslam/backend/OptimizerBase.hpp:53-71 *)
Record base : Type := mkBase { gradNorm : R; deltaX : R; deltaError : R; maxIt : Z; nJac : Z; nErr : Z }.
(* the member initialisers, aslam_backend/include/aslam/backend/OptimizerBase.hpp:59-64 *)
Definition base_default : base := mkBase (1/1000) 0 0 100 4 1.
(* OptimizerOptionsBase::check, aslam_backend/src/OptimizerBase.cpp:37-44 *)
Definition base_check (b : base) : bool :=
  ge (gradNorm b) 0 && ge (deltaX b) 0 && ge (deltaError b) 0 &&
  (gt (deltaX b) 0 || gt (gradNorm b) 0 || gt (deltaError b) 0) && (-1 <=? maxIt b)%Z.
(* OptimizerOptionsBase::OptimizerOptionsBase(config), aslam_backend/src/OptimizerBase.cpp:25-35 *)
Definition base_of (t : tree) : res base :=
  do g <- get as_double t "convergenceGradientNorm" (gradNorm base_default);
  do x <- get as_double t "convergenceDeltaX" (deltaX base_default);
  do e <- get as_double t "convergenceDeltaError" (deltaError base_default);
  do m <- get as_int t "maxIterations" (maxIt base_default);
  do j <- get as_int t "numThreadsJacobian" (nJac base_default);
  do n <- get as_int t "numThreadsError" (nErr base_default);
  let b := mkBase g x e m (size_of_int j) (size_of_int n) in
  do _ <- assert (base_check b); Ok b.

(** ** OptimizerOptionsRprop, OptimizerRprop *)

(* OptimizerOptionsRprop::Method, aslam_backend/include/aslam/backend/OptimizerRprop.hpp:23 *)
Inductive method : Type := RpropPlus | RpropMinus | IRpropMinus | IRpropPlus.
(* OptimizerOptionsRprop, aslam_backend/include/aslam/backend/OptimizerRprop.hpp:21-40; the regularizer stands for the object pointed to *)
Record rprop : Type := mkRprop { r_base : base; etaMinus : R; etaPlus : R; delta0 : R; deltaMin : R; deltaMax : R;
  r_dense : bool; r_reg : option nat; r_method : method }.
(* the member initialisers, aslam_backend/include/aslam/backend/OptimizerRprop.hpp:27-34 *)
Definition rprop_default : rprop := mkRprop base_default (1/2) (12/10) (1/10) (/ 10 ^ 20) 1 true None RpropPlus.
(* OptimizerOptionsRprop::check, aslam_backend/src/OptimizerRprop.cpp:29-37 *)
Definition rprop_check (o : rprop) : bool :=
  gt (etaMinus o) 0 && gt (etaPlus o) (etaMinus o) && gt (delta0 o) 0 && gt (deltaMin o) 0 && gt (deltaMax o) (deltaMin o) && base_check (r_base o).
(* OptimizerOptionsRprop::OptimizerOptionsRprop(config), aslam_backend/src/OptimizerRprop.cpp:18-27 *)
Definition rprop_of (t : tree) : res rprop :=
  do b <- base_of t;
  do em <- get as_double t "etaMinus" (etaMinus rprop_default);
  do ep <- get as_double t "etaPlus" (etaPlus rprop_default);
  do d0 <- get as_double t "initialDelta" (delta0 rprop_default);
  do dm <- get as_double t "minDelta" (deltaMin rprop_default);
  do dM <- get as_double t "maxDelta" (deltaMax rprop_default);
  let o := mkRprop b em ep d0 dm dM (r_dense rprop_default) (r_reg rprop_default) (r_method rprop_default) in
  do _ <- assert (rprop_check o); Ok o.
(* OptimizerRprop::OptimizerRprop(options), aslam_backend/src/OptimizerRprop.cpp:75-79; the object is its options *)
Definition rprop_new (o : rprop) : res rprop := do _ <- assert (rprop_check o); Ok o.
(* OptimizerRprop::OptimizerRprop(config), aslam_backend/src/OptimizerRprop.cpp:87-90 *)
Definition rprop_new_of (t : tree) : res rprop := do o <- rprop_of t; rprop_new o.
(* setOptions(options), setOptions(base options), aslam_backend/include/aslam/backend/OptimizerRprop.hpp:77-84; a write through the mutable getOptions() is of the first kind *)
Inductive rprop_op : Type := RSet (o : rprop) | RSetBase (b : base).
(* aslam_backend/include/aslam/backend/OptimizerRprop.hpp:77-84 *)
Definition rprop_do (cur : rprop) (p : rprop_op) : rprop :=
  match p with
  | RSet o => o
  | RSetBase b => mkRprop b (etaMinus cur) (etaPlus cur) (delta0 cur) (deltaMin cur) (deltaMax cur) (r_dense cur) (r_reg cur) (r_method cur)
  end.

(** ** LineSearchOptions, OptimizerOptionsBFGS, OptimizerBFGS *)

(* LineSearchOptions, aslam_backend/include/aslam/backend/LineSearch.hpp:177-194 *)
Record ls : Type := mkLs { c1 : R; c2 : R; maxStep : R; minStep : R; xtol : R; step0 : R; nWolfe1 : Z; nWolfe2 : Z; nZoom : Z }.
(* the member initialisers, aslam_backend/include/aslam/backend/LineSearch.hpp:182-190 *)
Definition ls_default : ls := mkLs (/ 10 ^ 4) (9/10) 50 (/ 10 ^ 8) (/ 10 ^ 14) 1 30 10 10.
(* LineSearchOptions::check, aslam_backend/src/LineSearch.cpp:406-416 *)
Definition ls_check (o : ls) : bool :=
  ge (c1 o) 0 && ge (c2 o) (c1 o) && ge (maxStep o) 0 && ge (minStep o) 0 && ge (xtol o) 0 && gt (step0 o) 0 &&
  (0 <? nWolfe1 o)%Z && (0 <? nWolfe2 o)%Z && (0 <? nZoom o)%Z.
(* LineSearchOptions::LineSearchOptions(config), aslam_backend/src/LineSearch.cpp:392-404 *)
Definition ls_of (t : tree) : res ls :=
  do a <- get as_double t "c1WolfeCondition" (c1 ls_default);
  do b <- get as_double t "c2WolfeCondition" (c2 ls_default);
  do M <- get as_double t "maxStepLength" (maxStep ls_default);
  do m <- get as_double t "minStepLength" (minStep ls_default);
  do x <- get as_double t "xtol" (xtol ls_default);
  do s <- get as_double t "initialStepLength" (step0 ls_default);
  do n1 <- get as_int t "nMaxIterWolfe1" (nWolfe1 ls_default);
  do n2 <- get as_int t "nMaxIterWolfe2" (nWolfe2 ls_default);
  do nz <- get as_int t "nMaxIterZoom" (nZoom ls_default);
  let o := mkLs a b M m x s (size_of_int n1) (size_of_int n2) (size_of_int nz) in
  do _ <- assert (ls_check o); Ok o.

(* OptimizerOptionsBFGS, aslam_backend/include/aslam/backend/OptimizerBFGS.hpp:19-31 *)
Record bfgs : Type := mkBfgs { b_base : base; b_ls : ls; b_dense : bool; b_reg : option nat }.
(* the member initialisers, aslam_backend/include/aslam/backend/OptimizerBFGS.hpp:23-25 *)
Definition bfgs_default : bfgs := mkBfgs base_default ls_default true None.
(* OptimizerOptionsBFGS::check, aslam_backend/src/OptimizerBFGS.cpp:34-38 *)
Definition bfgs_check (o : bfgs) : bool := base_check (b_base o) && ls_check (b_ls o).
(* OptimizerOptionsBFGS::OptimizerOptionsBFGS(config), aslam_backend/src/OptimizerBFGS.cpp:26-32 *)
Definition bfgs_of (t : tree) : res bfgs :=
  do b <- base_of t;
  do l <- ls_of (subtree t "linesearch");
  do d <- get as_bool t "useDenseJacobianContainer" (b_dense bfgs_default);
  let o := mkBfgs b l d (b_reg bfgs_default) in
  do _ <- assert (ls_check l); Ok o.
(* OptimizerBFGS::_options and the options of OptimizerBFGS::_linesearch, aslam_backend/include/aslam/backend/OptimizerBFGS.hpp:91-98 *)
Record bfgs_obj : Type := mkBobj { bo_opts : bfgs; bo_search : ls }.
(* OptimizerBFGS::OptimizerBFGS(options), aslam_backend/src/OptimizerBFGS.cpp:51-58, with LineSearch::LineSearch, aslam_backend/src/LineSearch.cpp:435-441 *)
Definition bfgs_new (o : bfgs) : res bfgs_obj :=
  do _ <- assert (ls_check (b_ls o)); do _ <- assert (bfgs_check o); Ok (mkBobj o (b_ls o)).
(* OptimizerBFGS::OptimizerBFGS(config), aslam_backend/src/OptimizerBFGS.cpp:66-69 *)
Definition bfgs_new_of (t : tree) : res bfgs_obj := do o <- bfgs_of t; bfgs_new o.
(* setOptions(options), setOptions(base options), aslam_backend/include/aslam/backend/OptimizerBFGS.hpp:66-70 *)
Inductive bfgs_op : Type := BSet (o : bfgs) | BSetBase (b : base).
(* aslam_backend/include/aslam/backend/OptimizerBFGS.hpp:66-70 *)
Definition bfgs_do (cur : bfgs_obj) (p : bfgs_op) : bfgs_obj :=
  match p with
  | BSet o => mkBobj o (b_ls o)
  | BSetBase b => mkBobj (mkBfgs b (b_ls (bo_opts cur)) (b_dense (bo_opts cur)) (b_reg (bo_opts cur))) (bo_search cur)
  end.

(** ** SamplerHybridMcmcOptions, SamplerHybridMcmc *)

(* SamplerHybridMcmcOptions, aslam_backend/include/aslam/backend/SamplerHybridMcmc.hpp:24-38 *)
Record hmc : Type := mkHmc { h_step0 : R; h_min : R; h_max : R; h_inc : R; h_dec : R; h_rate : R; h_std : R; h_steps : Z; h_threads : Z }.
(* the member initialisers, aslam_backend/include/aslam/backend/SamplerHybridMcmc.hpp:29-37 *)
Definition hmc_default : hmc := mkHmc (1/10) (1/1000) (1/2) (102/100) (98/100) (9/10) 1 20 2.
(* SamplerHybridMcmcOptions::check, aslam_backend/src/SamplerHybridMcmc.cpp:41-53 *)
Definition hmc_check (o : hmc) : bool :=
  gt (h_step0 o) 0 && ge (h_step0 o) (h_min o) && ge (h_max o) (h_step0 o) && gt (h_min o) 0 && gt (h_max o) 0 && ge (h_max o) (h_min o) &&
  ge (h_inc o) 1 && gt (h_dec o) 0 && ge 1 (h_dec o) && ge (h_rate o) 0 && ge 1 (h_rate o).
(* SamplerHybridMcmcOptions::SamplerHybridMcmcOptions(config), aslam_backend/src/SamplerHybridMcmc.cpp:26-39 *)
Definition hmc_of (t : tree) : res hmc :=
  do s <- get as_double t "initialLeapFrogStepSize" (h_step0 hmc_default);
  do m <- get as_double t "minLeapFrogStepSize" (h_min hmc_default);
  do M <- get as_double t "maxLeapFrogStepSize" (h_max hmc_default);
  do i <- get as_double t "incFactorLeapFrogStepSize" (h_inc hmc_default);
  do d <- get as_double t "decFactorLeapFrogStepSize" (h_dec hmc_default);
  do r <- get as_double t "targetAcceptanceRate" (h_rate hmc_default);
  do n <- get as_int t "nLeapFrogSteps" (h_steps hmc_default);
  do x <- get as_double t "nThreads" (IZR (h_threads hmc_default));
  do k <- size_of_double x;
  let o := mkHmc s m M i d r (h_std hmc_default) (size_of_int n) k in
  do _ <- assert (hmc_check o); Ok o.
(* SamplerHybridMcmc::_options and _stepLength, aslam_backend/include/aslam/backend/SamplerHybridMcmc.hpp:83-88 *)
Record hmc_obj : Type := mkHobj { ho_opts : hmc; ho_step : R }.
(* SamplerHybridMcmc::SamplerHybridMcmc(options), aslam_backend/src/SamplerHybridMcmc.cpp:79-85 *)
Definition hmc_new (o : hmc) : hmc_obj := mkHobj o (h_step0 o).
(* SamplerHybridMcmc::setOptions, aslam_backend/src/SamplerHybridMcmc.cpp:109-112 *)
Definition hmc_set (cur : hmc_obj) (o : hmc) : hmc_obj := mkHobj o (h_step0 o).

(** ** SamplerMetropolisHastingsOptions *)

(* SamplerMetropolisHastingsOptions, aslam_backend/include/aslam/backend/SamplerMetropolisHastings.hpp:18-25 *)
Record mh : Type := mkMh { m_sigma : R; m_threads : Z }.
(* the member initialisers, aslam_backend/include/aslam/backend/SamplerMetropolisHastings.hpp:21-22 *)
Definition mh_default : mh := mkMh (1/10) 1.
(* SamplerMetropolisHastingsOptions::check, aslam_backend/src/SamplerMetropolisHastings.cpp:29-31; no code calls it *)
Definition mh_check (o : mh) : bool := gt (m_sigma o) 0.
(* SamplerMetropolisHastingsOptions::SamplerMetropolisHastingsOptions(config), aslam_backend/src/SamplerMetropolisHastings.cpp:24-27 *)
Definition mh_of (t : tree) : res mh :=
  do s <- get as_double t "transitionKernelSigma" (m_sigma mh_default);
  do x <- get as_double t "nThreadsEvaluateLogDensity" (IZR (m_threads mh_default));
  do k <- size_of_double x; Ok (mkMh s k).

(** ** LevenbergMarquardtTrustRegionPolicy *)

(* the five parameters, aslam_backend/src/LevenbergMarquardtTrustRegionPolicy.cpp:7-15 *)
Record lmp : Type := mkLmp { lambda0 : R; gamma0 : R; beta0 : R; p0 : Z; mu0 : R }.
(* LevenbergMarquardtTrustRegionPolicy::LevenbergMarquardtTrustRegionPolicy(), aslam_backend/src/LevenbergMarquardtTrustRegionPolicy.cpp:7-15 *)
Definition lmp_default : lmp := mkLmp (1/1000) 3 2 3 2.
(* LevenbergMarquardtTrustRegionPolicy(config), aslam_backend/src/LevenbergMarquardtTrustRegionPolicy.cpp:26-32 *)
Definition lmp_of (t : tree) : res lmp :=
  do l <- get as_double t "lambdaInit" (1/1000);
  do g <- get as_double t "gammaInit" 3;
  do b <- get as_double t "betaInit" 2;
  do p <- get as_int t "pInit" 3%Z;
  do m <- get as_double t "muInit" 2; Ok (mkLmp l g b p m).

(** ** Optimizer2Options, Optimizer2 *)

(* a linear system solver or trust region policy object: which one, and what name() says; aslam_backend/include/aslam/backend/TrustRegionPolicy.hpp, LinearSystemSolver.hpp; the objects created by Optimizer2 itself have no number *)
Record part : Type := mkPart { pt_id : option nat; pt_name : string }.
(* Optimizer2Options, aslam_backend/include/aslam/backend/Optimizer2Options.hpp:14-36 *)
Record opt2 : Type := mkOpt2 { o_base : base; o_schur : bool; o_verbose : bool; o_fails : Z; o_solver : option part; o_policy : option part }.
(* Optimizer2Options::Optimizer2Options(), aslam_backend/include/aslam/backend/Optimizer2Options.hpp:15-23 *)
Definition opt2_default : opt2 := mkOpt2 (mkBase (1/1000) (1/1000) (1/1000) 20 4 1) false false 0 None None.
(* getDeprecatedPropertyIfItExists, aslam_backend/src/Optimizer2.cpp:21-33 *)
Definition deprecated {A} (eqd : forall x y : A, {x = y} + {x <> y}) (cv : entry -> option A) (t : tree) (old new : string) (d : A) : res A :=
  do dv <- get cv t old d;
  do v <- get cv t new d;
  if eqd dv d then Ok v else if eqd v d then Ok dv else Throw.
(* the reading of Optimizer2::Optimizer2(config, solver, policy), aslam_backend/src/Optimizer2.cpp:49-60 *)
Definition opt2_of (t : tree) (sv pl : option part) : res opt2 :=
  let d := opt2_default in
  do e <- deprecated Req_EM_T as_double t "convergenceDeltaJ" "convergenceDeltaError" (deltaError (o_base d));
  do x <- get as_double t "convergenceDeltaX" (deltaX (o_base d));
  do m <- get as_int t "maxIterations" (maxIt (o_base d));
  do s <- get as_bool t "doSchurComplement" (o_schur d);
  do v <- get as_bool t "verbose" (o_verbose d);
  do f <- get as_int t "linearSolverMaximumFails" (o_fails d);
  do j <- deprecated Z.eq_dec as_int t "nThreads" "numThreadsJacobian" (nJac (o_base d));
  do n <- get as_int t "numThreadsError" (nErr (o_base d));
  Ok (mkOpt2 (mkBase (gradNorm (o_base d)) x e m (size_of_int j) (size_of_int n)) s v f sv pl).
(* Optimizer2::_options, _solver, _trustRegionPolicy, aslam_backend/include/aslam/backend/Optimizer2.hpp:165-176 *)
Record opt2_obj : Type := mkO2 { oo_opts : opt2; oo_solver : part; oo_policy : part }.
(* Optimizer2::initializeLinearSolver, aslam_backend/src/Optimizer2.cpp:92-102 *)
Definition pick_solver (o : opt2) : part := match o_solver o with None => mkPart None "sparse_cholesky" | Some p => p end.
(* Optimizer2::initializeTrustRegionPolicy, aslam_backend/src/Optimizer2.cpp:71-89 *)
Definition pick_policy (o : opt2) (sv : part) : part :=
  let p := match o_policy o with None => mkPart None "levenberg_marquardt" | Some p => p end in
  if (pt_name sv =? "sparse_qr")%string && (pt_name p =? "levenberg_marquardt")%string then mkPart None "dog_leg" else p.
(* Optimizer2::Optimizer2(options), aslam_backend/src/Optimizer2.cpp:42-47 *)
Definition opt2_new (o : opt2) : opt2_obj := let s := pick_solver o in mkO2 o s (pick_policy o s).
(* Optimizer2::Optimizer2(config, solver, policy), aslam_backend/src/Optimizer2.cpp:49-65 *)
Definition opt2_new_of (t : tree) (sv pl : option part) : res opt2_obj := do o <- opt2_of t sv pl; Ok (opt2_new o).
(* setOptions(options), setOptions(base options), aslam_backend/include/aslam/backend/Optimizer2.hpp:88-92, and initialize(), aslam_backend/src/Optimizer2.cpp:104-108; a write through options() is of the first kind *)
Inductive opt2_op : Type := OSet (o : opt2) | OSetBase (b : base) | OInit.
(* aslam_backend/include/aslam/backend/Optimizer2.hpp:88-92, aslam_backend/src/Optimizer2.cpp:104-108 *)
Definition opt2_do (cur : opt2_obj) (p : opt2_op) : opt2_obj :=
  match p with
  | OSet o => mkO2 o (oo_solver cur) (oo_policy cur)
  | OSetBase b => let o := oo_opts cur in mkO2 (mkOpt2 b (o_schur o) (o_verbose o) (o_fails o) (o_solver o) (o_policy o)) (oo_solver cur) (oo_policy cur)
  | OInit => opt2_new (oo_opts cur)
  end.

(** ** Serialization: [ar & member] writes the member to an output archive and reads it back from an input archive *)

(* the values in an archive, aslam_backend/include/aslam/backend/implementation/OptimizerBaseImplementation.hpp:20-28 *)
Inductive av : Type := ADouble (x : R) | AInt (z : Z) | ABool (b : bool) | AObj (p : option nat) | AMethod (m : method).
(* boost::serialization::make_nvp as in aslam_backend/include/aslam/backend/implementation/OptimizerBaseImplementation.hpp:22: a name with a way to read and write the member *)
Record member (O : Type) : Type := mkMember { mb_name : string; mb_get : O -> av; mb_set : av -> O -> O }.
Arguments mkMember {O} _ _ _. Arguments mb_name {O} _. Arguments mb_get {O} _. Arguments mb_set {O} _.
(* the & operator of an output archive, aslam_backend/include/aslam/backend/implementation/OptimizerBaseImplementation.hpp:22-27 *)
Definition save {O} (l : list (member O)) (o : O) : list (string * av) := map (fun m => (mb_name m, mb_get m o)) l.
(* the & operator of an input archive, aslam_backend/include/aslam/backend/implementation/OptimizerBaseImplementation.hpp:22-27; a name that is not the expected one throws *)
Fixpoint load {O} (l : list (member O)) (a : list (string * av)) (o : O) : res O :=
  match l with
  | [] => Ok o
  | m :: l' => match a with
    | [] => Throw
    | (k, v) :: a' => if (k =? mb_name m)%string then load l' a' (mb_set m v o) else Throw
    end
  end.
(* the type of a member decides what the archive reads: the value of a double, aslam_backend/include/aslam/backend/OptimizerBase.hpp:59-61 *)
Definition dbl (v : av) (d : R) : R := match v with ADouble x => x | _ => d end.
(* the value of an int or a size_t, aslam_backend/include/aslam/backend/OptimizerBase.hpp:62-64 *)
Definition int (v : av) (d : Z) : Z := match v with AInt x => x | _ => d end.
(* the value of a bool, aslam_backend/include/aslam/backend/OptimizerRprop.hpp:32 *)
Definition bol (v : av) (d : bool) : bool := match v with ABool x => x | _ => d end.
(* the object pointed to, aslam_backend/include/aslam/backend/OptimizerRprop.hpp:33 *)
Definition obj (v : av) (d : option nat) : option nat := match v with AObj x => x | _ => d end.
(* the value of the enumeration, aslam_backend/include/aslam/backend/OptimizerRprop.hpp:34 *)
Definition mth (v : av) (d : method) : method := match v with AMethod x => x | _ => d end.
(* a base class subobject or a member of class type: its members one by one, BOOST_SERIALIZATION_BASE_OBJECT_NVP in aslam_backend/include/aslam/backend/implementation/OptimizerRpropImpl.hpp:18 *)
Definition inside {O P} (f : O -> P) (g : P -> O -> O) (l : list (member P)) : list (member O) :=
  map (fun m => mkMember (mb_name m) (fun o => mb_get m (f o)) (fun v o => g (mb_set m v (f o)) o)) l.

(* OptimizerOptionsBase::serialize, aslam_backend/include/aslam/backend/implementation/OptimizerBaseImplementation.hpp:20-28 *)
Definition base_members : list (member base) :=
  [ mkMember "convergenceGradientNorm" (fun b => ADouble (gradNorm b)) (fun v b => mkBase (dbl v (gradNorm b)) (deltaX b) (deltaError b) (maxIt b) (nJac b) (nErr b));
    mkMember "convergenceDeltaX" (fun b => ADouble (deltaX b)) (fun v b => mkBase (gradNorm b) (dbl v (deltaX b)) (deltaError b) (maxIt b) (nJac b) (nErr b));
    mkMember "convergenceDeltaError" (fun b => ADouble (deltaError b)) (fun v b => mkBase (gradNorm b) (deltaX b) (dbl v (deltaError b)) (maxIt b) (nJac b) (nErr b));
    mkMember "maxIterations" (fun b => AInt (maxIt b)) (fun v b => mkBase (gradNorm b) (deltaX b) (deltaError b) (int v (maxIt b)) (nJac b) (nErr b));
    mkMember "numThreadsJacobian" (fun b => AInt (nJac b)) (fun v b => mkBase (gradNorm b) (deltaX b) (deltaError b) (maxIt b) (int v (nJac b)) (nErr b));
    mkMember "numThreadsError" (fun b => AInt (nErr b)) (fun v b => mkBase (gradNorm b) (deltaX b) (deltaError b) (maxIt b) (nJac b) (int v (nErr b))) ].
(* LineSearchOptions::serialize, aslam_backend/include/aslam/backend/implementation/LineSearchImpl.hpp:17-27 *)
Definition ls_members : list (member ls) :=
  [ mkMember "c1WolfeCondition" (fun o => ADouble (c1 o)) (fun v o => mkLs (dbl v (c1 o)) (c2 o) (maxStep o) (minStep o) (xtol o) (step0 o) (nWolfe1 o) (nWolfe2 o) (nZoom o));
    mkMember "c2WolfeCondition" (fun o => ADouble (c2 o)) (fun v o => mkLs (c1 o) (dbl v (c2 o)) (maxStep o) (minStep o) (xtol o) (step0 o) (nWolfe1 o) (nWolfe2 o) (nZoom o));
    mkMember "maxStepLength" (fun o => ADouble (maxStep o)) (fun v o => mkLs (c1 o) (c2 o) (dbl v (maxStep o)) (minStep o) (xtol o) (step0 o) (nWolfe1 o) (nWolfe2 o) (nZoom o));
    mkMember "minStepLength" (fun o => ADouble (minStep o)) (fun v o => mkLs (c1 o) (c2 o) (maxStep o) (dbl v (minStep o)) (xtol o) (step0 o) (nWolfe1 o) (nWolfe2 o) (nZoom o));
    mkMember "xtol" (fun o => ADouble (xtol o)) (fun v o => mkLs (c1 o) (c2 o) (maxStep o) (minStep o) (dbl v (xtol o)) (step0 o) (nWolfe1 o) (nWolfe2 o) (nZoom o));
    mkMember "initialStepLength" (fun o => ADouble (step0 o)) (fun v o => mkLs (c1 o) (c2 o) (maxStep o) (minStep o) (xtol o) (dbl v (step0 o)) (nWolfe1 o) (nWolfe2 o) (nZoom o));
    mkMember "nMaxIterWolfe1" (fun o => AInt (nWolfe1 o)) (fun v o => mkLs (c1 o) (c2 o) (maxStep o) (minStep o) (xtol o) (step0 o) (int v (nWolfe1 o)) (nWolfe2 o) (nZoom o));
    mkMember "nMaxIterWolfe2" (fun o => AInt (nWolfe2 o)) (fun v o => mkLs (c1 o) (c2 o) (maxStep o) (minStep o) (xtol o) (step0 o) (nWolfe1 o) (int v (nWolfe2 o)) (nZoom o));
    mkMember "nMaxIterZoom" (fun o => AInt (nZoom o)) (fun v o => mkLs (c1 o) (c2 o) (maxStep o) (minStep o) (xtol o) (step0 o) (nWolfe1 o) (nWolfe2 o) (int v (nZoom o))) ].
(* OptimizerOptionsRprop::serialize, aslam_backend/include/aslam/backend/implementation/OptimizerRpropImpl.hpp:17-27 *)
Definition rprop_members : list (member rprop) :=
  (inside r_base (fun b o => mkRprop b (etaMinus o) (etaPlus o) (delta0 o) (deltaMin o) (deltaMax o) (r_dense o) (r_reg o) (r_method o)) base_members ++
  [ mkMember "etaMinus" (fun o => ADouble (etaMinus o)) (fun v o => mkRprop (r_base o) (dbl v (etaMinus o)) (etaPlus o) (delta0 o) (deltaMin o) (deltaMax o) (r_dense o) (r_reg o) (r_method o));
    mkMember "etaPlus" (fun o => ADouble (etaPlus o)) (fun v o => mkRprop (r_base o) (etaMinus o) (dbl v (etaPlus o)) (delta0 o) (deltaMin o) (deltaMax o) (r_dense o) (r_reg o) (r_method o));
    mkMember "initialDelta" (fun o => ADouble (delta0 o)) (fun v o => mkRprop (r_base o) (etaMinus o) (etaPlus o) (dbl v (delta0 o)) (deltaMin o) (deltaMax o) (r_dense o) (r_reg o) (r_method o));
    mkMember "minDelta" (fun o => ADouble (deltaMin o)) (fun v o => mkRprop (r_base o) (etaMinus o) (etaPlus o) (delta0 o) (dbl v (deltaMin o)) (deltaMax o) (r_dense o) (r_reg o) (r_method o));
    mkMember "maxDelta" (fun o => ADouble (deltaMax o)) (fun v o => mkRprop (r_base o) (etaMinus o) (etaPlus o) (delta0 o) (deltaMin o) (dbl v (deltaMax o)) (r_dense o) (r_reg o) (r_method o));
    mkMember "useDenseJacobianContainer" (fun o => ABool (r_dense o)) (fun v o => mkRprop (r_base o) (etaMinus o) (etaPlus o) (delta0 o) (deltaMin o) (deltaMax o) (bol v (r_dense o)) (r_reg o) (r_method o));
    mkMember "regularizer" (fun o => AObj (r_reg o)) (fun v o => mkRprop (r_base o) (etaMinus o) (etaPlus o) (delta0 o) (deltaMin o) (deltaMax o) (r_dense o) (obj v (r_reg o)) (r_method o));
    mkMember "method" (fun o => AMethod (r_method o)) (fun v o => mkRprop (r_base o) (etaMinus o) (etaPlus o) (delta0 o) (deltaMin o) (deltaMax o) (r_dense o) (r_reg o) (mth v (r_method o))) ])%list.
(* OptimizerOptionsBFGS::serialize, aslam_backend/include/aslam/backend/implementation/OptimizerBFGSImpl.hpp:17-22 *)
Definition bfgs_members : list (member bfgs) :=
  (inside b_base (fun b o => mkBfgs b (b_ls o) (b_dense o) (b_reg o)) base_members ++
   inside b_ls (fun l o => mkBfgs (b_base o) l (b_dense o) (b_reg o)) ls_members ++
  [ mkMember "useDenseJacobianContainer" (fun o => ABool (b_dense o)) (fun v o => mkBfgs (b_base o) (b_ls o) (bol v (b_dense o)) (b_reg o));
    mkMember "regularizer" (fun o => AObj (b_reg o)) (fun v o => mkBfgs (b_base o) (b_ls o) (b_dense o) (obj v (b_reg o))) ])%list.
