(* Eigenvectors and eigenvalues of a matrix. *)
From Coq Require Import ZArith List Reals.
From Verif Require Import Model_Base Model_Irrep Model_Vec Spec_Rep Spec_Four.
Import ListNotations.
Open Scope Z_scope.

(* a matrix as the list of its rows *)
Definition entry (X : list (list R)) (i j : Z) : R := nth (Z.to_nat j) (nth (Z.to_nat i) X []) 0%R.

(* X is square, the columns of U are orthonormal, and column j of U is an eigenvector of X for the eigenvalue D(j) *)
Definition eigen_of (X : list (list R)) (U : mat) (D : list R) : Prop :=
  let d := zlen X in
  (forall r, In r X -> zlen r = d) /\ m_n0 U = d /\ m_n1 U = d /\ zlen D = d /\
  (forall i j, 0 <= i < d -> 0 <= j < d -> rsum d (fun c => (m_at U c i * m_at U c j)%R) = delta i j) /\
  (forall c j, 0 <= c < d -> 0 <= j < d -> rsum d (fun e => (entry X c e * m_at U e j)%R) = (m_at U c j * nth (Z.to_nat j) D 0%R)%R).

(* an eigenvalue routine without rounding: it decomposes every matrix that has a decomposition *)
Definition exact (E : list (list R) -> mat * list R) : Prop :=
  forall X, (exists U D, eigen_of X U D) -> eigen_of X (fst (E X)) (snd (E X)).

(* X is a square symmetric matrix *)
Definition symmetric (X : list (list R)) : Prop :=
  (forall r, In r X -> zlen r = zlen X) /\ forall i j, 0 <= i < zlen X -> 0 <= j < zlen X -> entry X i j = entry X j i.

(* a w x w matrix with orthonormal rows and columns *)
Definition orthogonal_matrix (w : Z) (A : Z -> Z -> R) : Prop :=
  forall i j, 0 <= i < w -> 0 <= j < w -> rsum w (fun c => (A i c * A j c)%R) = delta i j /\ rsum w (fun c => (A c i * A c j)%R) = delta i j.
