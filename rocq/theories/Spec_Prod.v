(* The tensor product of two representations, independently of the model. *)
From Coq Require Import ZArith Reals.
From Verif Require Import Spec_Rep.
Open Scope Z_scope.

(* entry of the Kronecker product of A with a d1 x d1 matrix B: the index is (first index)*d1 + second index *)
Definition kronecker (d1 : Z) (A B : Z -> Z -> R) (i k : Z) : R := (A (i / d1)%Z (k / d1)%Z * B (i mod d1)%Z (k mod d1)%Z)%R.
