(** * Who keeps the nodes of expressions alive (C84)

    Expressions hold their root in a boost::shared_ptr, nodes hold their operands in
    shared_ptrs; expressions made from a plain pointer (toExpression(), the constructors
    taking a node pointer, a coordinate frame over a parent by reference) hold a
    shared_ptr with a deleter that does nothing.  The model is the memory: objects, what
    they point to, the use counts.  Values are left out; empty (null) expressions are
    only skipped here, what they mean is C58. *)
From Coq Require Import Arith List Bool Lia.
From Verif Require Import Lib_Res.
Import ListNotations.

(* boost::shared_ptr<Node>: the object pointed to and whether the pointer owns it; with sm::null_deleter() it does not; aslam_backend_expressions/src/ScalarExpression.cpp:33-39, RotationExpression.cpp:12-25 *)
Record ptr : Type := mkPtr { p_to : nat; p_own : bool }.
(* an expression node, a design variable or a coordinate frame with the shared_ptrs it holds (None = null), aslam_backend_expressions/include/aslam/backend/EuclideanExpressionNode.hpp:45-47, TransformationBasic.hpp:29-30, KinematicChain.hpp:29; x_managed: created for a shared_ptr, otherwise a variable or a member of something else; x_count: the use count of its owning pointers *)
Record object : Type := mkObj { x_managed : bool; x_live : bool; x_ops : list (option ptr); x_count : nat }.
(* the objects in the order of their creation and the expressions (or shared_ptrs to design variables) the program has, None once destroyed; aslam_backend_expressions/include/aslam/backend/ScalarExpression.hpp:72 *)
Record state : Type := mkState { objs : list object; vars : list (option (option ptr)) }.
(* nothing created yet, aslam_backend_expressions/include/aslam/backend/ScalarExpression.hpp:28-72 *)
Definition start : state := mkState [] [].

(* the use count of a shared_ptr when it is copied, as in the constructors of aslam_backend_expressions/src/EuclideanExpressionNode.cpp taking their operands *)
Definition retain (l : list object) (q : option ptr) : list object :=
  match q with
  | Some (mkPtr i true) => match nth_error l i with
      | Some x => upd l i (mkObj (x_managed x) (x_live x) (x_ops x) (S (x_count x)))
      | None => l end
  | _ => l
  end.
(* the same for all operands of a new node, aslam_backend_expressions/src/EuclideanExpressionNode.cpp *)
Definition retain_all (l : list object) (qs : list (option ptr)) : list object := fold_left retain qs l.
(* the owning pointers among the members of an object that is destroyed, aslam_backend_expressions/include/aslam/backend/EuclideanExpressionNode.hpp:45-47 *)
Definition owned (qs : list (option ptr)) : list nat :=
  flat_map (fun q => match q with Some (mkPtr i true) => [i] | _ => [] end) qs.
(* the destructors of a list of shared_ptrs: the count goes down, at zero the object is destroyed and with it its own pointers, depth first; releasing a pointer to an object that is gone is a double free; the fuel is the number of pointers there are.  aslam_backend_expressions/src/ScalarExpression.cpp:41-43 (destructors), EuclideanExpressionNode.cpp *)
Fixpoint release (fuel : nat) (todo : list nat) (l : list object) : res (list object) :=
  match todo with
  | [] => Ok l
  | i :: todo' =>
      match fuel with
      | O => UB
      | S f => match nth_error l i with
          | None => UB
          | Some x =>
              if x_live x then
                match x_count x with
                | O => UB
                | S O => release f (owned (x_ops x) ++ todo') (upd l i (mkObj (x_managed x) false (x_ops x) 0))
                | S c => release f todo' (upd l i (mkObj (x_managed x) true (x_ops x) c))
                end
              else UB
          end
      end
  end.
(* the pointers there are, aslam_backend_expressions/include/aslam/backend/EuclideanExpressionNode.hpp:45-47 *)
Definition pointers (l : list object) : nat := fold_right (fun x n => length (owned (x_ops x)) + n) 0 l.
(* the destructors at the end of a statement or scope, aslam_backend_expressions/src/ScalarExpression.cpp:41-43 *)
Definition release_all (todo : list nat) (l : list object) : res (list object) := release (length todo + pointers l) todo l.

(* what programs do: NewVariable a design variable, frame or transformation on the stack (or in another object) that holds copies of some of the expressions, EuclideanPoint.cpp:6-14, TransformationBasic.cpp:8-15, KinematicChain.hpp:28-38; NewNode a node or design variable managed by a shared_ptr, with the expression over it, as by the operators in EuclideanExpression.cpp and RotationExpression.cpp:54-73; FromPointer toExpression() and the constructors from a plain pointer, ScalarExpression.cpp:33-35; Empty a default-constructed expression, HomogeneousExpression.cpp:8-11; Copy, Assign, Drop the copy constructor, the assignment and the destructor of an expression; EndVariable the end of the scope of an object made by NewVariable; Evaluate evaluate(), evaluateJacobians(), getDesignVariables(), RotationExpression.cpp:33-93; all under aslam_backend_expressions/src and include/aslam/backend *)
Inductive op : Type :=
  | NewVariable (hs : list nat) | NewNode (hs : list nat) | FromPointer (i : nat) | Empty
  | Copy (h : nat) | Assign (h h' : nat) | Drop (h : nat) | EndVariable (i : nat) | Evaluate (h : nat).

(* an expression that has not been destroyed, aslam_backend_expressions/include/aslam/backend/ScalarExpression.hpp:28-72 *)
Definition var (s : state) (h : nat) : res (option ptr) :=
  match nth_error (vars s) h with Some (Some q) => Ok q | _ => UB end.
(* the roots of several expressions, as passed to a node's constructor in aslam_backend_expressions/src/RotationExpression.cpp:60 *)
Fixpoint roots (s : state) (hs : list nat) : res (list (option ptr)) :=
  match hs with [] => Ok [] | h :: hs' => do q <- var s h; do qs <- roots s hs'; Ok (q :: qs) end.
(* evaluating follows the pointers of the node and of all its operands; aslam_backend_expressions/src/EuclideanExpressionNode.cpp, RotationExpressionNode.cpp; an object that is gone is undefined behaviour; the fuel is the depth of the tree *)
Fixpoint touch (fuel : nat) (l : list object) (q : option ptr) : res unit :=
  match q with
  | None => Ok tt
  | Some p => match fuel with
      | O => UB
      | S f => match nth_error l (p_to p) with
          | None => UB
          | Some x => if x_live x then fold_left (fun r o => do _ <- r; touch f l o) (x_ops x) (Ok tt) else UB
          end
      end
  end.

(* one operation; the files are those at op *)
(* ScalarExpression.cpp:33-43 and the others at op *)
Definition step (s : state) (o : op) : res state :=
  match o with
  | NewVariable hs => do qs <- roots s hs; Ok (mkState (retain_all (objs s) qs ++ [mkObj false true qs 0]) (vars s))
  | NewNode hs => do qs <- roots s hs; Ok (mkState (retain_all (objs s) qs ++ [mkObj true true qs 1]) (vars s ++ [Some (Some (mkPtr (length (objs s)) true))]))
  | FromPointer i => match nth_error (objs s) i with
      | Some x => if x_live x then Ok (mkState (objs s) (vars s ++ [Some (Some (mkPtr i false))])) else UB
      | None => UB end
  | Empty => Ok (mkState (objs s) (vars s ++ [Some None]))
  | Copy h => do q <- var s h; Ok (mkState (retain (objs s) q) (vars s ++ [Some q]))
  | Assign h h' => do old <- var s h; do q <- var s h';
      do l <- release_all (owned [old]) (retain (objs s) q); Ok (mkState l (upd (vars s) h (Some q)))
  | Drop h => do q <- var s h; do l <- release_all (owned [q]) (objs s); Ok (mkState l (upd (vars s) h None))
  | EndVariable i => match nth_error (objs s) i with
      | Some x => if x_live x && negb (x_managed x) then
          do l <- release_all (owned (x_ops x)) (upd (objs s) i (mkObj false false (x_ops x) 0)); Ok (mkState l (vars s)) else UB
      | None => UB end
  | Evaluate h => do q <- var s h; do _ <- touch (S (length (objs s))) (objs s) q; Ok s
  end.
(* a program, e.g. aslam_backend_expressions/test/ScalarExpression.cpp *)
Fixpoint run (s : state) (p : list op) : res state :=
  match p with [] => Ok s | o :: p' => do s' <- step s o; run s' p' end.
