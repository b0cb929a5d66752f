(* Property C18: IntegerPartition::hooklength counts standard Young tableaux. *)
From Coq Require Import ZArith List Bool Lia.
From Verif Require Import Model_Base Model_Part Model_Comb Model_Tab Model_Irrep Model_Sn32 Spec_Perm Spec_Part Spec_Tab.
From Verif Require Import Proof_Base Proof_Part Proof_Tab Proof_TabProps Proof_Irrep Proof_Restr Proof_Hook.
Import ListNotations.
Open Scope Z_scope.

(* for every partition, hooklength() is the number of standard Young tableaux of that shape *)
Theorem C18_hooklength_counts_tableaux : forall n lambda, is_part n lambda ->
  exists L, NoDup L /\ (forall t, In t L <-> standard lambda t) /\ ip_hooklength lambda = Ret (Z.of_nat (length L)).
Proof. exact hooklength_statement. Qed.
Print Assumptions C18_hooklength_counts_tableaux.

(* it is the dimension of the irrep object the library builds for that shape *)
Theorem C18_hooklength_is_the_dimension : forall n lambda, is_part n lambda -> 1 <= n -> exists o, irr_new lambda = Ret o /\ ip_hooklength lambda = Ret (io_d o).
Proof.
  intros n l P Hn. destruct (mkirr_ok n l P Hn) as (E & G). exists (mkirr n l). split; [exact E|]. destruct G as (_ & G). assert (is_part (Z.of_nat (Z.to_nat n)) l) as P' by (rewrite Z2Nat.id by lia; auto). rewrite (hooklength_ok _ _ P'). f_equal. destruct G as (_ & _ & _ & G). unfold io_d. rewrite G. unfold zlen. rewrite map_length. reflexivity.
Qed.
Print Assumptions C18_hooklength_is_the_dimension.

(* with 32-bit int the formula is the same up to n = 12; from n = 13 on the factorial overflows for every partition, also
   for those whose count fits *)
Theorem C18_int_up_to_12 : forall n lambda, is_part n lambda -> 0 <= n <= 12 -> ip_hooklength32 lambda = ip_hooklength lambda.
Proof. exact hooklength32_ok. Qed.
Print Assumptions C18_int_up_to_12.

Theorem C18_int_from_13_refuted : forall n lambda, is_part n lambda -> 13 <= n -> ip_hooklength32 lambda = UB.
Proof. exact hooklength32_over. Qed.
Print Assumptions C18_int_from_13_refuted.

Example C18_example : is_part 7 [4; 2; 1] /\ ip_hooklength [4; 2; 1] = Ret 35 /\ ip_hooklength [13] = Ret 1 /\ is_part 13 [13].
Proof. split; [apply decb_part; reflexivity|]. split; [vm_compute; reflexivity|]. split; [vm_compute; reflexivity|apply decb_part; reflexivity]. Qed.
