(* Property C88: the values of characters are whole numbers, Sn/SnIrrepObj.hpp:100-114 and Sn/SnCharBank.hpp. *)
From Coq Require Import ZArith List Bool Lia Reals Lra.
From Verif Require Import Model_Base Model_Perm Model_Part Model_Comb Model_Tab Model_Irrep Model_Class Model_Char.
From Verif Require Import Spec_Perm Spec_Part Spec_Rep Spec_Four Spec_Char.
From Verif Require Import Proof_Base Proof_TabProps Proof_Int4.
Import Model_Char ListNotations.
Open Scope Z_scope.

(* no character exceeds the dimension, and every value is whole *)
Theorem C88_whole_numbers : forall n lambda o mu, 1 <= n -> is_part n lambda -> is_part n mu -> irr_new lambda = Ret o ->
  exists z : Z, irr_character o mu = Ret (IZR z) /\ - io_d o <= z <= io_d o.
Proof. exact character_whole. Qed.
Print Assumptions C88_whole_numbers.

(* the entries of the character table *)
Theorem C88_table_entries : forall n lambda f mu, 1 <= n -> is_part n lambda -> is_part n mu -> character_of n lambda f ->
  exists z : Z, cf_atl f mu = Ret (IZR z).
Proof. exact table_whole. Qed.
Print Assumptions C88_table_entries.

(* although the entries of the matrices are square roots, their traces are whole *)
Theorem C88_traces : forall n lambda o sigma, 1 <= n -> is_part n lambda -> irr_new lambda = Ret o -> is_perm n sigma ->
  exists M (z : Z), irr_matrix o sigma = Ret M /\ trace (io_d o) (m_at M) = IZR z.
Proof. exact matrix_trace_whole. Qed.
Print Assumptions C88_traces.

(* at the class of the cycles through all points: only hooks (a,1,...,1) do not vanish, and their sign is the parity of the
   number of ones *)
Theorem C88_long_cycle : forall n lambda o, 1 <= n -> is_part n lambda -> irr_new lambda = Ret o ->
  (forall a b, lambda = a :: repeat 1 b -> irr_character o [n] = Ret (if Nat.even b then 1 else -1)%R) /\
  ((forall a b, lambda <> a :: repeat 1 b) -> irr_character o [n] = Ret 0%R).
Proof. exact character_long_cycle. Qed.
Print Assumptions C88_long_cycle.

(* S5: a hook and a shape that is none *)
Example C88_example : is_part 5 [3; 1; 1] /\ [3; 1; 1] = 3 :: repeat 1 2 /\ is_part 5 [3; 2] /\ (forall a b, [3; 2] <> a :: repeat 1 b) /\ (exists o, irr_new [3; 2] = Ret o /\ io_d o = 5) /\ (exists o, irr_new [3; 1; 1] = Ret o /\ io_d o = 6).
Proof.
  split; [apply decb_part; reflexivity|]. split; [reflexivity|]. split; [apply decb_part; reflexivity|]. split; [intros a [|[|b]] E; discriminate|].
  split; eexists; (split; [vm_compute; reflexivity|reflexivity]).
Qed.
