(* Batches: the member k of a batch, and what it means to be a batch of vectors. *)
From Coq Require Import ZArith List Bool Reals.
From Verif Require Import Model_Base Model_Part Model_Comb Model_Tab Model_Irrep Model_Type Model_FFT Model_Vec Model_CG Model_CGvec Model_VecB.
From Verif Require Import Spec_Part Spec_Rep Spec_Vec Spec_CG Spec_CGvec.
Import ListNotations.
Open Scope Z_scope.

(* the member k of a batched part, and of a batched vector *)
Definition slice (k : Z) (P : partb) : spart := mkSpart (pb_irr P) (mkMat (t_n1 (pb_t P)) (t_n2 (pb_t P)) (t_at (pb_t P) k)).
Definition slices (k : Z) (v : list partb) : list spart := map (slice k) v.

(* v is a batch of nb vectors of S_n *)
Definition size_is (nb : Z) (v : list partb) : Prop := forall P, In P v -> t_n0 (pb_t P) = nb.
Definition batch_any (n nb : Z) (v : list partb) : Prop :=
  1 <= nb /\ size_is nb v /\ forall k P, 0 <= k < nb -> In P v -> exists l m, is_part n l /\ part_of l m (slice k P).

(* the same with different partitions and single columns *)
Definition batch (n nb : Z) (v : list partb) : Prop :=
  1 <= nb /\ size_is nb v /\ forall k, 0 <= k < nb -> one_columns n (slices k v).

(* the requests: those of Spec_CGvec and products of batches of the same size that are not empty *)
Definition legal_bvq (q : bvq) : Prop :=
  match q with
  | BOne q => legal_cvq q
  | BVec x y => exists n nb, 1 <= n /\ batch n nb x /\ batch n nb y /\ x <> [] /\ y <> []
  | BPart x y => exists n nb, 1 <= n /\ batch n nb [x] /\ batch n nb [y]
  end.
