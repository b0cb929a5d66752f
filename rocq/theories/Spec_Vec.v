(* Vectors made of one matrix for each irrep, and restriction to S_(n-1), in terms of tableaux. *)
From Coq Require Import ZArith List Bool Reals.
From Verif Require Import Model_Base Model_Part Model_Comb Model_Tab Model_Irrep Model_FFT.
Import ListNotations.
Open Scope Z_scope.

(* t without the number n; a row that becomes empty disappears *)
Definition erase (n : Z) (t : list (list Z)) : list (list Z) :=
  filter (fun r => match r with [] => false | _ => true end) (map (filter (fun v => negb (v =? n))) t).

(* P is a part for the irrep lambda: one row for each tableau, m columns *)
Definition part_of (lambda : list Z) (m : Z) (P : spart) : Prop :=
  irr_new lambda = Ret (sp_irr P) /\ m_n0 (sp_mat P) = io_d (sp_irr P) /\ m_n1 (sp_mat P) = m /\ 0 <= m.

(* v has exactly the parts listed in tau, in this order *)
Definition vec_of (tau : list (list Z * Z)) (v : list spart) : Prop :=
  Forall2 (fun p P => part_of (fst p) (snd p) P) tau v.

(* x is the entry of P in the row of the tableau t and in column j *)
Definition at_tableau (P : spart) (t : list (list Z)) (j : Z) (x : R) : Prop :=
  0 <= j < m_n1 (sp_mat P) /\
  exists i, nth_error (io_tabs (sp_irr P)) i = Some t /\ m_at (sp_mat P) (Z.of_nat i) j = x.

(* the diagram of mu lies inside that of lambda *)
Fixpoint fits (mu lambda : list Z) : bool :=
  match mu, lambda with
  | [], _ => true
  | a :: mu', b :: lambda' => (a <=? b) && fits mu' lambda'
  | _ :: _, [] => false
  end.

(* the number of columns of mu that the entries of pre take up when they are restricted *)
Definition columns_used (pre : list (list Z * Z)) (mu : list Z) : Z :=
  fold_right Z.add 0 (map snd (filter (fun p => fits mu (fst p)) pre)).

(* the number of columns of the parts for mu among ps *)
Definition columns_of (ps : list spart) (mu : list Z) : Z :=
  fold_right Z.add 0 (map (fun P => m_n1 (sp_mat P)) (filter (fun P => if list_eq_dec Z.eq_dec (io_lambda (sp_irr P)) mu then true else false) ps)).
