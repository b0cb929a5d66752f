(* What it means to mix the columns of the parts of a vector. *)
From Coq Require Import ZArith List Reals.
From Verif Require Import Model_Base Model_Part Model_Irrep Model_FFT.
From Verif Require Import Spec_Rep.
Open Scope Z_scope.

(* Q belongs to the irrep lambda of P and has c lambda columns; column j of Q is the combination of the columns of P with the
   coefficients f lambda j k *)
Definition mixed (f : list Z -> Z -> Z -> R) (c : list Z -> Z) (P Q : spart) : Prop :=
  sp_irr Q = sp_irr P /\ m_n0 (sp_mat Q) = m_n0 (sp_mat P) /\ m_n1 (sp_mat Q) = c (io_lambda (sp_irr P)) /\
  forall i j, m_at (sp_mat Q) i j = rsum (m_n1 (sp_mat P)) (fun k => (m_at (sp_mat P) i k * f (io_lambda (sp_irr P)) j k)%R).
