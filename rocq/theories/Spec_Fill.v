(* What the entries of a newly made part or vector are to be. *)
From Coq Require Import ZArith List Bool Reals.
From Verif Require Import Model_Base Model_Part Model_Irrep Model_FFT.
Import ListNotations.
Open Scope Z_scope.

Inductive pattern := PZero | POnes | PIdentity.

Definition entry (p : pattern) (i j : Z) : R :=
  match p with PZero => 0 | POnes => 1 | PIdentity => if i =? j then 1 else 0 end%R.

(* the entries of P follow the pattern *)
Definition filled (p : pattern) (P : spart) : Prop :=
  forall i j, 0 <= i < m_n0 (sp_mat P) -> 0 <= j < m_n1 (sp_mat P) -> m_at (sp_mat P) i j = entry p i j.

(* a tensor of d rows and m columns can have the pattern: the identity has to be square *)
Definition fits_pattern (p : pattern) (d m : Z) : Prop := 0 <= m /\ (p = PIdentity -> m = d).

(* the pattern fits every part of the type *)
Definition fits_type (p : pattern) (tau : list (list Z * Z)) : Prop :=
  forall l m o, In (l, m) tau -> irr_new l = Ret o -> fits_pattern p (io_d o) m.
