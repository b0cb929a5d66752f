(* Property C40: the actions on the slices of a view, Sn/SnIrrepObj.hpp:194-338, 454-486. *)
From Coq Require Import ZArith List Bool Lia Reals.
From Verif Require Import Model_Base Model_Perm Model_Part Model_Comb Model_Tab Model_Irrep.
From Verif Require Import Spec_Perm Spec_Part Spec_Tab Spec_Rep Spec_Four.
From Verif Require Import Proof_Base Proof_Perm Proof_PermProps Proof_Part Proof_TabProps Proof_Irrep Proof_IrrepProps Proof_ViewProps Proof_ViewExact Proof_FFTover.
Import ListNotations.
Open Scope Z_scope.

(* middle index: every shape, every permutation *)
Theorem C40_middle_index : forall n lambda o p T, is_part n lambda -> 1 <= n -> irr_new lambda = Ret o -> is_perm n p ->
  t_n1 T = io_d o -> 0 <= t_n0 T -> 0 <= t_n2 T ->
  exists M T', irr_matrix o p = Ret M /\ irr_mid_perm o p T = Ret T' /\ t_n0 T' = t_n0 T /\ t_n1 T' = t_n1 T /\ t_n2 T' = t_n2 T /\
    forall a i b, 0 <= a < t_n0 T -> 0 <= i < io_d o -> 0 <= b < t_n2 T ->
      t_at T' a i b = rsum (io_d o) (fun k => (m_at M i k * t_at T a k b)%R).
Proof. exact mid_action. Qed.
Print Assumptions C40_middle_index.

Theorem C40_middle_index_cycle : forall n lambda o a b T, is_part n lambda -> 1 <= n -> irr_new lambda = Ret o -> 1 <= a <= n -> 1 <= b <= n ->
  t_n1 T = io_d o -> 0 <= t_n0 T -> 0 <= t_n2 T ->
  exists c M T', p_contiguous_cycle n a b = Ret c /\ irr_matrix o c = Ret M /\ irr_mid_cycle o (mkCyc a b) T = Ret T' /\
    t_n0 T' = t_n0 T /\ t_n1 T' = t_n1 T /\ t_n2 T' = t_n2 T /\
    forall x i y, 0 <= x < t_n0 T -> 0 <= i < io_d o -> 0 <= y < t_n2 T ->
      t_at T' x i y = rsum (io_d o) (fun k => (m_at M i k * t_at T x k y)%R).
Proof. exact mid_cycle_action. Qed.
Print Assumptions C40_middle_index_cycle.

Theorem C40_middle_index_transposition : forall n lambda o a b T, is_part n lambda -> 1 <= n -> irr_new lambda = Ret o -> 1 <= a <= n -> 1 <= b <= n ->
  t_n1 T = io_d o -> 0 <= t_n0 T -> 0 <= t_n2 T ->
  exists c M T', p_transposition n a b = Ret c /\ irr_matrix o c = Ret M /\ irr_mid_transp o (mkTransp a b) T = Ret T' /\
    t_n0 T' = t_n0 T /\ t_n1 T' = t_n1 T /\ t_n2 T' = t_n2 T /\
    forall x i y, 0 <= x < t_n0 T -> 0 <= i < io_d o -> 0 <= y < t_n2 T ->
      t_at T' x i y = rsum (io_d o) (fun k => (m_at M i k * t_at T x k y)%R).
Proof. exact mid_transp_action. Qed.
Print Assumptions C40_middle_index_transposition.

(* first index: for shapes whose exchanged pairs overlap; all shapes of at most 4 boxes are such *)
Theorem C40_first_index : forall n lambda o p T, is_part n lambda -> 1 <= n -> irr_new lambda = Ret o ->
  (forall tau, 1 <= tau < n -> pairs_overlap (io_tabs o) tau) -> is_perm n p -> t_n0 T = io_d o ->
  exists M T', irr_matrix o p = Ret M /\ irr_view_perm o p T = Ret T' /\ t_n0 T' = t_n0 T /\ t_n1 T' = t_n1 T /\ t_n2 T' = t_n2 T /\
    forall i a b, 0 <= i < io_d o -> t_at T' i a b = rsum (io_d o) (fun k => (m_at M i k * t_at T k a b)%R).
Proof. exact view_action. Qed.
Print Assumptions C40_first_index.

Theorem C40_first_index_cycle : forall n lambda o a b T, is_part n lambda -> 1 <= n -> irr_new lambda = Ret o ->
  (forall tau, 1 <= tau < n -> pairs_overlap (io_tabs o) tau) -> 1 <= a <= n -> 1 <= b <= n -> t_n0 T = io_d o ->
  exists c M T', p_contiguous_cycle n a b = Ret c /\ irr_matrix o c = Ret M /\ irr_view_cycle o (mkCyc a b) T = Ret T' /\
    t_n0 T' = t_n0 T /\ t_n1 T' = t_n1 T /\ t_n2 T' = t_n2 T /\
    forall i x y, 0 <= i < io_d o -> t_at T' i x y = rsum (io_d o) (fun k => (m_at M i k * t_at T k x y)%R).
Proof. exact view_cycle_action. Qed.
Print Assumptions C40_first_index_cycle.

Theorem C40_first_index_transposition : forall n lambda o a b T, is_part n lambda -> 1 <= n -> irr_new lambda = Ret o ->
  (forall tau, 1 <= tau < n -> pairs_overlap (io_tabs o) tau) -> 1 <= a <= n -> 1 <= b <= n -> t_n0 T = io_d o ->
  exists c M T', p_transposition n a b = Ret c /\ irr_matrix o c = Ret M /\ irr_view_transp o (mkTransp a b) T = Ret T' /\
    t_n0 T' = t_n0 T /\ t_n1 T' = t_n1 T /\ t_n2 T' = t_n2 T /\
    forall i x y, 0 <= i < io_d o -> t_at T' i x y = rsum (io_d o) (fun k => (m_at M i k * t_at T k x y)%R).
Proof. exact view_transp_action. Qed.
Print Assumptions C40_first_index_transposition.

Theorem C40_small_shapes_overlap : forall n lambda o tau, is_part n lambda -> 1 <= n <= 4 -> irr_new lambda = Ret o -> 1 <= tau < n ->
  pairs_overlap (io_tabs o) tau.
Proof. exact small_overlap. Qed.
Print Assumptions C40_small_shapes_overlap.

(* the full property fails: acting with the transposition (2,3) on the identity matrix, seen as a 5x5x1
   view, the batched action clears row 0 and leaves row 3 alone *)
Theorem C40_first_index_refuted : exists o T' M, is_part 5 [3;2] /\ irr_new [3;2] = Ret o /\ io_d o = 5 /\
  irr_apply_view o 2 (mkTen 5 5 1 (fun i j _ => if i =? j then 1%R else 0%R)) = Ret T' /\ irr_apply o 2 (mident 5) = Ret M /\
  t_at T' 0 0 0 = 0%R /\ m_at M 0 0 = 1%R /\ t_at T' 3 3 0 = 1%R /\ m_at M 3 3 = (- / 2)%R.
Proof. exact view_misses_pairs. Qed.
Print Assumptions C40_first_index_refuted.

(* for no other shape: a generator acts as its matrix on every view exactly when its pairs overlap *)
Theorem C40_first_index_exact : forall n lambda o tau, is_part n lambda -> 1 <= n -> irr_new lambda = Ret o -> 1 <= tau < n ->
  (pairs_overlap (io_tabs o) tau <->
   exists c M, p_transposition n tau (tau + 1) = Ret c /\ irr_matrix o c = Ret M /\
     forall T, t_n0 T = io_d o -> exists T', irr_view_transp o (mkTransp tau (tau + 1)) T = Ret T' /\
       forall i a b, 0 <= i < io_d o -> t_at T' i a b = rsum (io_d o) (fun k => (m_at M i k * t_at T k a b)%R)).
Proof. exact view_exact. Qed.
Print Assumptions C40_first_index_exact.

(* some shapes have more pairs after one another than there are slots: the plan for (5,6) on [3,2,1] is
   written outside its tensor *)
Theorem C40_first_index_overflow_refuted : exists o, is_part 6 [3;2;1] /\ irr_new [3;2;1] = Ret o /\ io_d o = 16 /\
  forall T, t_n0 T = 16 -> irr_view_transp o (mkTransp 5 6) T = UB.
Proof. exact view_leaves_tensor. Qed.
Print Assumptions C40_first_index_overflow_refuted.

Example C40_example : exists o, is_part 4 [3;1] /\ irr_new [3;1] = Ret o /\ io_d o = 3 /\ is_perm 4 [2;4;1;3] /\
  exists T, t_n1 T = io_d o /\ t_n0 T = 2 /\ t_n2 T = 3.
Proof.
  eexists. split; [apply decb_part; reflexivity|]. split; [vm_compute; reflexivity|]. split; [reflexivity|].
  split; [apply (check_is_perm [2;4;1;3]); reflexivity|]. exists (mkTen 2 3 3 (fun _ _ _ => 1%R)). repeat split.
Qed.
