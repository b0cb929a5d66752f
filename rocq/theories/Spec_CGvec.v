(* The Clebsch-Gordan product of vectors: legal requests, inner products, orthogonal factors. *)
From Coq Require Import ZArith List Bool Reals.
From Verif Require Import Model_Base Model_Part Model_Comb Model_Tab Model_Irrep Model_Type Model_FFT Model_Vec Model_CG Model_CGvec.
From Verif Require Import Spec_Part Spec_Rep Spec_Four Spec_Type Spec_FFT Spec_Vec Spec_CG.
Import ListNotations.
Open Scope Z_scope.

(* v has parts for different partitions of n, and each part is a single column *)
Definition one_columns (n : Z) (v : list spart) : Prop :=
  NoDup (map (fun P => io_lambda (sp_irr P)) v) /\ forall P, In P v -> exists l, is_part n l /\ part_of l 1 P.

(* the requests: those of Spec_CG, products of vectors and products of parts, with single columns *)
Definition legal_cvq (q : cvq) : Prop :=
  match q with
  | CTypes q => legal_cgq q
  | CVec x y => exists n, 1 <= n /\ one_columns n x /\ one_columns n y
  | CPart x y => exists n, 1 <= n /\ one_columns n [x] /\ one_columns n [y]
  end.

(* after some requests, the product of x and y is R *)
Definition product_is (F : ftable) (x y R : list spart) : Prop :=
  exists qs aa st, Forall legal_cvq qs /\ cvrun F (qs ++ [CVec x y]) cg0 = Ret (aa ++ [RVec R], st).

(* v and w have parts for the same partitions in the same order, and parts of the same size *)
Definition alike (v w : list spart) : Prop :=
  Forall2 (fun P Q => sp_irr P = sp_irr Q /\ m_n0 (sp_mat P) = m_n0 (sp_mat Q) /\ m_n1 (sp_mat P) = m_n1 (sp_mat Q)) v w.

(* the sum of the products of the entries of v with the entries of w *)
Definition part_dot (P Q : spart) : R :=
  rsum (m_n0 (sp_mat P)) (fun i => rsum (m_n1 (sp_mat P)) (fun j => (m_at (sp_mat P) i j * m_at (sp_mat Q) i j)%R)).
Definition vec_dot (v w : list spart) : R := sum_over (combine v w) (fun p => part_dot (fst p) (snd p)).

(* z = s * v + w, entry by entry *)
Definition combination (s : R) (v w z : list spart) : Prop :=
  alike v z /\ alike w z /\
  forall k V W Z i j, nth_error v k = Some V -> nth_error w k = Some W -> nth_error z k = Some Z -> 0 <= i < m_n0 (sp_mat Z) -> 0 <= j < m_n1 (sp_mat Z) ->
    m_at (sp_mat Z) i j = (s * m_at (sp_mat V) i j + m_at (sp_mat W) i j)%R.

(* each factor, the matrix for (a, b, mu), has orthonormal rows *)
Definition orthogonal_factors (F : ftable) : Prop :=
  forall n a b t st sub mu k c e, 2 <= n -> is_part n a -> is_part n b -> cgrun [GProd a b] cg0 = Ret ([AType t], st) -> ty_down t = Ret sub -> In (mu, k) sub ->
    0 <= c < k -> 0 <= e < k -> rsum k (fun j => (F a b mu c j * F a b mu e j)%R) = delta c e.

(* products of vectors of Sn commute with the permutations ps *)
Definition products_commute (F : ftable) (n : Z) (ps : list Z -> Prop) : Prop :=
  forall x y p x' y' R R', one_columns n x -> one_columns n y -> ps p -> sv_apply p x = Ret x' -> sv_apply p y = Ret y' ->
    product_is F x y R -> product_is F x' y' R' -> exists R'', sv_apply p R = Ret R'' /\ Forall2 same_part R'' R'.
