(* Clebsch-Gordan multiplicities, independently of the model's bank. *)
From Coq Require Import ZArith List Reals Permutation.
From Verif Require Import Model_Base Model_Part Model_Tab Model_Irrep Model_Type Model_CG.
From Verif Require Import Spec_Perm Spec_Part Spec_Rep Spec_Four Spec_Type.
Import ListNotations.
Open Scope Z_scope.

(* x is the trace of the matrix of sigma in the irrep l *)
Definition irrep_trace (l sigma : list Z) (x : R) : Prop :=
  exists o M, irr_new l = Ret o /\ irr_matrix o sigma = Ret M /\ x = trace (io_d o) (m_at M).

(* m is how often the irrep c of S_n occurs in the tensor product of the irreps a and b: the average over the group of
   the product of the three characters *)
Definition cg_mult (n : Z) (a b c : list Z) (m : Z) : Prop :=
  0 <= m /\
  forall L ta tb tc, lists_Sn n L ->
    (forall p, In p L -> irrep_trace a p (ta p)) -> (forall p, In p L -> irrep_trace b p (tb p)) -> (forall p, In p L -> irrep_trace c p (tc p)) ->
    (IZR m * INR (fact (Z.to_nat n)) = sum_over L (fun p => ta p * tb p * tc p))%R.

(* x is the trace of sigma in a representation of type t *)
Definition type_trace (t : list (list Z * Z)) (sigma : list Z) (x : R) : Prop :=
  exists xs, Forall2 (fun q y => irrep_trace (fst q) sigma y) t xs /\ x = sum_over (combine t xs) (fun e => (IZR (snd (fst e)) * snd e)%R).

(* the requests name partitions and types of one group *)
Definition legal_cgq (q : cgq) : Prop :=
  match q with
  | GCoeff a b c => exists n, 1 <= n /\ is_part n a /\ is_part n b /\ is_part n c
  | GProd a b => exists n, 1 <= n /\ is_part n a /\ is_part n b
  | GTypes s t => exists n, 1 <= n /\ type_of n s /\ type_of n t
  end.
