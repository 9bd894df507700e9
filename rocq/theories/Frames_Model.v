(** * Coordinate frames as objects: parents, and expressions that are kept once they are built (C85)

    aslam_backend_expressions/include/aslam/backend/KinematicChain.hpp ("KC") and src/KinematicChain.cpp ("KS").
    The frames of a program are a list, a frame is known by its place (its address).  The getters change the frames they visit, so they are programs here; the subexpressions are
    evaluated from left to right (C++ leaves the order open).  Lifetimes are left out (C84), and so is the move assignment.  A copy constructor is not modelled: KC L22 and L28 both declare one, so that copying a
    frame that has a name is ambiguous. *)
From Coq Require Import Arith List Bool.
From Verif Require Import Lib_Res Scalar_Model Geo_Model Empty_Model Chain_Model.
Import ListNotations.

(* pp; R_P_L, p, v, a, omega, alpha; R_G_L, pG, vG, aG, omegaG, alphaG: KC L104-108 *)
Record fobj := mkF { o_parent : option nat; o_local : frame; o_global : frame }.
(* the vectors: KC L57-81 *)
Inductive qty := QP | QOmega | QAlpha | QV | QA.
(* the member of that name: KC L107-108 *)
Definition sel (q : qty) (f : frame) : handle vx := match q with QP => fp f | QOmega => fomega f | QAlpha => falpha f | QV => fv f | QA => fa f end.
(* assignment to it: KC L59, L66, L74, KS L17, L24 *)
Definition put (q : qty) (x : handle vx) (f : frame) : frame :=
  match q with
  | QP => Build_frame (fR f) x (fomega f) (fv f) (falpha f) (fa f)
  | QOmega => Build_frame (fR f) (fp f) x (fv f) (falpha f) (fa f)
  | QV => Build_frame (fR f) (fp f) (fomega f) x (falpha f) (fa f)
  | QAlpha => Build_frame (fR f) (fp f) (fomega f) (fv f) x (fa f)
  | QA => Build_frame (fR f) (fp f) (fomega f) (fv f) (falpha f) x end.
(* assignment to R_G_L: KC L52 *)
Definition putR (x : handle rx) (f : frame) : frame := Build_frame x (fp f) (fomega f) (fv f) (falpha f) (fa f).
(* default-constructed expressions: KC L21, L28 *)
Definition noframe : frame := Build_frame HNull HNull HNull HNull HNull HNull.

(* in the model only: a computation that may change the frames *)
Definition M (A : Type) : Type := list fobj -> res (A * list fobj).
(* in the model only: return *)
Definition ret {A} (a : A) : M A := fun h => Ok (a, h).
(* in the model only: one after the other *)
Definition thenM {A B} (m : M A) (f : A -> M B) : M B := fun h => do r <- m h; f (fst r) (snd r).
Notation "'let!' x ':=' m 'in' k" := (thenM m (fun x => k)) (at level 200, x name, k at level 200).
(* in the model only: store a member of frame i and return it, as the return statements KC L54, L61, L68, L76, KS L19, L26 do *)
Definition keep {A} (i : nat) (put : A -> frame -> frame) (x : A) : M A := fun h =>
  match nth_error h i with Some o => Ok (x, upd h i (mkF (o_parent o) (o_local o) (put x (o_global o)))) | None => UB end.

(* operator* of a rotation and a vector, operator+, cross *)
Local Notation "r ** p" := (r_apply 0 r p) (at level 40, left associativity).
Local Notation "a ++ b" := (e_add a b).
Local Notation "a >< b" := (e_cross a b) (at level 45).

(* getR_G_L KC L50-55; the fuel is the depth of the recursion, a stack that overflows is undefined behaviour *)
Fixpoint getRG (fuel : nat) (i : nat) : M (handle rx) := fun h =>
  match nth_error h i with
  | None => UB
  | Some o => match o_parent o with
      | Some p => if isEmpty (fR (o_global o)) then
          match fuel with O => UB | S f => (let! r := getRG f p in keep i putR (r_mul 0 r (fR (o_local o)))) h end
          else Ok (fR (o_global o), h)
      | None => Ok (fR (o_global o), h) end
  end.
(* getPG KC L72-77, getOmegaG L57-62, getAlphaG L64-69, getVG KS L15-20, getAG KS L22-27 *)
Fixpoint getEG (fuel : nat) (q : qty) (i : nat) : M (handle vx) := fun h =>
  match nth_error h i with
  | None => UB
  | Some o => match o_parent o with
      | Some p => if isEmpty (sel q (o_global o)) then
          match fuel with
          | O => UB
          | S f => let l := o_local o in
              (match q with
               | QP => let! a := getEG f QP p in let! r := getRG f p in keep i (put QP) (a ++ r ** fp l)
               | QOmega => let! a := getEG f QOmega p in let! r := getRG f p in keep i (put QOmega) (a ++ r ** fomega l)
               | QAlpha => let! a := getEG f QAlpha p in let! w := getEG f QOmega p in let! r := getRG f p in let! r2 := getRG f p in
                   keep i (put QAlpha) ((a ++ (w >< (r ** fomega l))) ++ r2 ** falpha l)
               | QV => let! a := getEG f QV p in let! r := getRG f p in let! w := getEG f QOmega p in let! r2 := getRG f p in
                   keep i (put QV) ((a ++ r ** fv l) ++ (w >< (r2 ** fp l)))
               | QA => let! a := getEG f QA p in let! r := getRG f p in let! w := getEG f QOmega p in let! r2 := getRG f p in let! al := getEG f QAlpha p in let! r3 := getRG f p in
                   let! w2 := getEG f QOmega p in let! w3 := getEG f QOmega p in let! r4 := getRG f p in
                   keep i (put QA) ((((a ++ r ** fa l) ++ (w >< (r2 ** fv l))) ++ (al >< (r3 ** fp l))) ++ (w2 >< (w3 >< (r4 ** fp l))))
               end) h
          end
          else Ok (sel q (o_global o), h)
      | None => Ok (sel q (o_global o), h) end
  end.

(* what programs do with frames: the constructors KC L21 (NewDefault), L28-31 and L32-38 with a parent (NewChild), L40-44 and L32-38 with a null pointer (NewRoot), the move constructor L23 (Move), the assignment L25, the getters L50-81 *)
Inductive fop := NewDefault | NewRoot (l : frame) | NewChild (p : nat) (l : frame) | Move (i : nat) | Assign (i j : nat) | GetR (i : nat) | Get (i : nat) (q : qty).
(* what the getters return: KC L50-81 *)
Inductive answer := Nothing | Rotation (r : handle rx) | Vector (x : handle vx).
(* what a move leaves behind: pp and the vectors are empty, RotationExpression has a destructor of its own and is copied; KC L23, RotationExpression.hpp:38, VectorExpression.hpp:23-28 *)
Definition moved (o : fobj) : fobj := mkF None (putR (fR (o_local o)) noframe) (putR (fR (o_global o)) noframe).
(* one operation, the lines are those at fop; initGlobalsWithoutParent KS L6-13.  The stack suffices for as many nested calls as there are frames *)
Definition step (h : list fobj) (o : fop) : res (answer * list fobj) :=
  match o with
  | NewDefault => Ok (Nothing, h ++ [mkF None noframe noframe])%list
  | NewRoot l => Ok (Nothing, h ++ [mkF None l l])%list
  | NewChild p l => match nth_error h p with Some _ => Ok (Nothing, h ++ [mkF (Some p) l noframe])%list | None => UB end
  | Move i => match nth_error h i with Some o => Ok (Nothing, upd h i (moved o) ++ [o])%list | None => UB end
  | Assign i j => match nth_error h i, nth_error h j with Some _, Some o => Ok (Nothing, upd h i o) | _, _ => UB end
  | GetR i => do r <- getRG (length h) i h; Ok (Rotation (fst r), snd r)
  | Get i q => do r <- getEG (length h) q i h; Ok (Vector (fst r), snd r)
  end.
(* a program, e.g. aslam_backend_expressions/test/KinematicChain.cpp *)
Fixpoint run (h : list fobj) (p : list fop) : res (list answer * list fobj) :=
  match p with [] => Ok ([], h) | o :: p' => do a <- step h o; do r <- run (snd a) p'; Ok (fst a :: fst r, snd r) end.
