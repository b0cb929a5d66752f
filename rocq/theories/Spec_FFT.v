(* The Fourier transform on Sn and Sn/Sm, independently of how the code computes it. *)
From Coq Require Import ZArith List Reals.
From Verif Require Import Model_Base Model_Perm Model_Sn Model_Part Model_Comb Model_Tab Model_Irrep Model_FFT.
From Verif Require Import Spec_Perm Spec_Part Spec_Tab Spec_Rep Spec_Four.
Import ListNotations.
Open Scope Z_scope.

(* P belongs to the irrep of shape lambda and its matrix is square of that size *)
Definition square_part (lambda : list Z) (P : spart) : Prop :=
  irr_new lambda = Ret (sp_irr P) /\ m_n0 (sp_mat P) = io_d (sp_irr P) /\ m_n1 (sp_mat P) = io_d (sp_irr P).

(* P is the Fourier coefficient at lambda of the function G: the sum over p of G(p) rho_lambda(p^-1).  The group
   may be listed in any order; A p is the matrix of the inverse of p. *)
Definition fourier_part (n : Z) (G : list Z -> R) (lambda : list Z) (P : spart) : Prop :=
  square_part lambda P /\
  forall L A, lists_Sn n L -> (forall p q, In p L -> is_inverse n p q -> irr_matrix (sp_irr P) q = Ret (A p)) ->
    agree (io_d (sp_irr P)) (io_d (sp_irr P)) (m_at (sp_mat P)) (fun i j => sum_over L (fun p => (G p * m_at (A p) i j)%R)).

(* the parts have the same irreps, sizes and entries *)
Definition same_part (P Q : spart) : Prop :=
  sp_irr P = sp_irr Q /\ m_n0 (sp_mat P) = m_n0 (sp_mat Q) /\ m_n1 (sp_mat P) = m_n1 (sp_mat Q) /\
  agree (m_n0 (sp_mat P)) (m_n1 (sp_mat P)) (m_at (sp_mat P)) (m_at (sp_mat Q)).

(* R is the matrix product P * Q of two parts of the same irrep *)
Definition product_part (P Q R : spart) : Prop :=
  sp_irr P = sp_irr R /\ sp_irr Q = sp_irr R /\ m_n0 (sp_mat R) = io_d (sp_irr R) /\ m_n1 (sp_mat R) = io_d (sp_irr R) /\
  agree (io_d (sp_irr R)) (io_d (sp_irr R)) (m_at (sp_mat R)) (mprod (io_d (sp_irr R)) (m_at (sp_mat P)) (m_at (sp_mat Q))).

(* the same for two vectors, part by part *)
Inductive product_parts : list spart -> list spart -> list spart -> Prop :=
| product_nil : product_parts [] [] []
| product_cons : forall P Q R v w x, product_part P Q R -> product_parts v w x -> product_parts (P :: v) (Q :: w) (R :: x).

(* Q is the part P multiplied by the matrix of t from the right, from the left; Q is P transposed *)
Definition right_multiple (t : list Z) (P Q : spart) : Prop :=
  sp_irr Q = sp_irr P /\ m_n0 (sp_mat Q) = m_n0 (sp_mat P) /\ m_n1 (sp_mat Q) = m_n1 (sp_mat P) /\
  exists M, irr_matrix (sp_irr P) t = Ret M /\ agree (io_d (sp_irr P)) (io_d (sp_irr P)) (m_at (sp_mat Q)) (mprod (io_d (sp_irr P)) (m_at (sp_mat P)) (m_at M)).
Definition left_multiple (t : list Z) (P Q : spart) : Prop :=
  sp_irr Q = sp_irr P /\ m_n0 (sp_mat Q) = m_n0 (sp_mat P) /\ m_n1 (sp_mat Q) = m_n1 (sp_mat P) /\
  exists M, irr_matrix (sp_irr P) t = Ret M /\ agree (io_d (sp_irr P)) (io_d (sp_irr P)) (m_at (sp_mat Q)) (mprod (io_d (sp_irr P)) (m_at M) (m_at (sp_mat P))).
Definition transposed_part (P Q : spart) : Prop :=
  sp_irr Q = sp_irr P /\ m_n0 (sp_mat Q) = m_n1 (sp_mat P) /\ m_n1 (sp_mat Q) = m_n0 (sp_mat P) /\
  agree (m_n0 (sp_mat Q)) (m_n1 (sp_mat Q)) (m_at (sp_mat Q)) (mtrans (m_at (sp_mat P))).

(* the numbers 1..m stand in the first row of t *)
Definition first_row_has (m : Z) (t : list (list Z)) : Prop := forall v, 1 <= v <= m -> row_of t v 0.

(* cs are, in increasing order, the positions in the list ts of the tableaux with 1..m in the first row *)
Definition columns_from (m : Z) (ts : list (list (list Z))) (cs : list Z) : Prop :=
  (forall a b, (a < b < length cs)%nat -> nth a cs 0 < nth b cs 0) /\
  forall c, In c cs <-> exists t, 0 <= c /\ nth_error ts (Z.to_nat c) = Some t /\ first_row_has m t.

(* p describes the part of irrep lambda, number ix of its level, with one column for each tableau that has
   1..m in the first row *)
Definition part_template (m : Z) (lambda : list Z) (ix : nat) (p : tpart) : Prop :=
  exists ts cs, young_tableaux lambda = Ret ts /\ irr_new lambda = Ret (tp_irr p) /\ tp_ix p = Z.of_nat ix /\
    tp_d p = Z.of_nat (length ts) /\ columns_from m ts cs /\ tp_m p = Z.of_nat (length cs).

(* b describes the block of mu inside lambda: tableau number a of mu is tableau number bk_i+a of lambda with its
   largest number taken away, and column number a of mu is column number bk_j+a of lambda.  Ps are the parts of
   the level below. *)
Definition block_template (m : Z) (Ps : list tpart) (lambda mu : list Z) (b : blk) : Prop :=
  exists q ts us cs ds, 0 <= bk_sub b /\ nth_error Ps (Z.to_nat (bk_sub b)) = Some q /\ irr_new mu = Ret (tp_irr q) /\
    young_tableaux lambda = Ret ts /\ young_tableaux mu = Ret us /\ columns_from m ts cs /\ columns_from m us ds /\
    0 <= bk_i b /\ 0 <= bk_j b /\
    (forall a u, nth_error us a = Some u -> exists t, nth_error ts (Z.to_nat (bk_i b) + a) = Some t /\ forall r c, cell mu r c -> entry t r c = entry u r c) /\
    (forall a x, nth_error ds a = Some x -> nth_error cs (Z.to_nat (bk_j b) + a) = Some (bk_i b + x)).

(* P is the Fourier coefficient at lambda of the function on Sn/Sm with the values v: row i, column y is the sum
   over the cosets e of v[e] rho_lambda(s^-1)[i,c], where s is element e of Sn/Sm and c is the y-th tableau with
   1..m in the first row *)
Definition quotient_part (n m : Z) (v : list R) (lambda : list Z) (P : spart) : Prop :=
  exists ts cs, young_tableaux lambda = Ret ts /\ columns_from m ts cs /\ irr_new lambda = Ret (sp_irr P) /\
    m_n0 (sp_mat P) = Z.of_nat (length ts) /\ m_n1 (sp_mat P) = Z.of_nat (length cs) /\
    forall A, (forall e s q, 0 <= e < Z.of_nat (length v) -> snsm_element n m e = Ret s -> is_inverse n s q -> irr_matrix (sp_irr P) q = Ret (A e)) ->
      agree (m_n0 (sp_mat P)) (m_n1 (sp_mat P)) (m_at (sp_mat P))
        (fun i y => rsum (Z.of_nat (length v)) (fun e => (nth (Z.to_nat e) v 0 * m_at (A e) i (nth (Z.to_nat y) cs 0%Z))%R)).
