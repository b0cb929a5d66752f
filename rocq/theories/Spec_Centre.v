(* Class functions, scalar matrices and characters seen as functions on Sn. *)
From Coq Require Import ZArith List Reals.
From Verif Require Import Model_Base Model_Perm Model_Sn Model_Part Model_Comb Model_Tab Model_Irrep Model_Fun Model_FFT.
From Verif Require Import Spec_Perm Spec_Part Spec_Tab Spec_Rep Spec_Four.
Import ListNotations.
Open Scope Z_scope.

(* f has n! values *)
Definition on_group (n : Z) (f : sfun) : Prop := sf_n f = n /\ length (sf_v f) = fact (Z.to_nat n).

(* f takes the same value at any two permutations with the same cycle lengths *)
Definition class_function (n : Z) (f : sfun) : Prop :=
  forall p q mu, is_part n mu -> cycle_type n p mu -> cycle_type n q mu -> sf_at f p = sf_at f q.

(* the matrix of P is square and c times the identity *)
Definition scalar_part (c : R) (P : spart) : Prop :=
  m_n0 (sp_mat P) = io_d (sp_irr P) /\ m_n1 (sp_mat P) = io_d (sp_irr P) /\
  forall i j, 0 <= i < io_d (sp_irr P) -> 0 <= j < io_d (sp_irr P) -> m_at (sp_mat P) i j = if Z.eq_dec i j then c else 0%R.

(* f has at each permutation the value of the character of lambda at its cycle lengths *)
Definition character_function (n : Z) (lambda : list Z) (f : sfun) : Prop :=
  exists o, irr_new lambda = Ret o /\ forall p mu, is_part n mu -> cycle_type n p mu -> sf_at f p = irr_character o mu.

(* P belongs to lambda and is c times the identity, where c times the dimension is the sum over the group of f(p)
   times the character of lambda at p *)
Definition scalar_coefficient (n : Z) (f : sfun) (lambda : list Z) (P : spart) : Prop :=
  irr_new lambda = Ret (sp_irr P) /\
  exists c, scalar_part c P /\
    forall L G X, lists_Sn n L -> (forall p, In p L -> sf_at f p = Ret (G p)) ->
      (forall p mu, In p L -> is_part n mu -> cycle_type n p mu -> irr_character (sp_irr P) mu = Ret (X p)) ->
      (c * IZR (io_d (sp_irr P)) = sum_over L (fun p => G p * X p))%R.
