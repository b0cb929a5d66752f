(* Models apply_inplace of Sn/SnVecB.hpp.  The loops are for(auto p: *this): the loop variable is declared by value, so
   that p is a copy of the part (SnPartB.hpp 174-175 copies the tensor), and what is done to it does not reach the part in
   the container.  cnine's container is not in the repository; whether its iterator returns the part or a reference to
   it, auto p is a new object. *)
From Coq Require Import ZArith List Bool.
From Verif Require Import Model_Base Model_Perm Model_VecB.
Import ListNotations.
Open Scope Z_scope.

(* SnVecB.hpp 163-167: apply_inplace(sigma) *)
Definition vb_apply_inplace (sigma : perm) (v : list partb) : outcome (list partb) :=
  foldM (fun p v => p' <- pb_apply sigma p ;; Ret v) v v.

(* SnVecB.hpp 169-173: apply_inplace(cyc) *)
Definition vb_apply_inplace_cycle (c : ccycle) (v : list partb) : outcome (list partb) :=
  foldM (fun p v => p' <- pb_apply_cycle c p ;; Ret v) v v.
