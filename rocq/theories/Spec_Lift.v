(* Functions on Sn/Sm and on Sn, independently of the model. *)
From Coq Require Import ZArith List Reals.
From Verif Require Import Model_Base Model_Perm Model_Sn Model_Tab Model_Irrep Model_Fun Model_FFT Spec_Perm Spec_Rep Spec_FFT.
Import ListNotations.
Open Scope Z_scope.

(* the function g on Sn takes at every permutation the value that v, a list of one value per coset of Sm, has for
   the coset of that permutation *)
Definition lifts (n m : Z) (v : list R) (g : sfun) : Prop :=
  forall p i, is_perm n p -> snsm_index n m p = Ret i -> sf_at g p = Ret (nth (Z.to_nat i) v 0%R).

(* Q holds the columns of P that belong to the tableaux with 1..m in the first row, divided by m!; the other
   columns of P are zero *)
Definition lifted_part (m : Z) (P Q : spart) : Prop :=
  exists ts cs, young_tableaux (io_lambda (sp_irr P)) = Ret ts /\ columns_from m ts cs /\ sp_irr Q = sp_irr P /\
    m_n0 (sp_mat P) = Z.of_nat (length ts) /\ m_n1 (sp_mat P) = Z.of_nat (length ts) /\ m_n0 (sp_mat Q) = Z.of_nat (length ts) /\ m_n1 (sp_mat Q) = Z.of_nat (length cs) /\
    forall i, 0 <= i < Z.of_nat (length ts) ->
      (forall y, 0 <= y < Z.of_nat (length cs) -> m_at (sp_mat P) i (nth (Z.to_nat y) cs 0) = (INR (fact (Z.to_nat m)) * m_at (sp_mat Q) i y)%R) /\
      (forall c, 0 <= c < Z.of_nat (length ts) -> ~ In c cs -> m_at (sp_mat P) i c = 0%R).

(* cs are the columns of the irrep of P that belong to the tableaux with 1..m in the first row *)
Definition part_columns (m : Z) (P : spart) (cs : list Z) : Prop :=
  exists ts, young_tableaux (io_lambda (sp_irr P)) = Ret ts /\ columns_from m ts cs.

(* P belongs to the irrep of shape lambda and has a row for each tableau, a column for each with 1..m in the first row *)
Definition quotient_shape (m : Z) (lambda : list Z) (P : spart) : Prop :=
  irr_new lambda = Ret (sp_irr P) /\ exists cs, part_columns m P cs /\ m_n0 (sp_mat P) = io_d (sp_irr P) /\ m_n1 (sp_mat P) = Z.of_nat (length cs).
