(* Property C37: characters, Sn/SnIrrepObj.hpp:100-114. *)
From Coq Require Import ZArith List Bool Lia Reals.
From Verif Require Import Model_Base Model_Perm Model_Part Model_Comb Model_Tab Model_Irrep.
From Verif Require Import Spec_Perm Spec_Part Spec_Tab Spec_Rep.
From Verif Require Import Proof_Base Proof_Perm Proof_PermProps Proof_Part Proof_TabProps Proof_Irrep Proof_IrrepProps Proof_Char.
Import ListNotations.
Open Scope Z_scope.

(* character(mu) is the trace of rho(sigma) for every sigma of cycle type mu *)
Theorem C37_character_is_the_trace : forall n lambda o sigma mu,
  is_part n lambda -> 1 <= n -> irr_new lambda = Ret o -> is_part n mu -> cycle_type n sigma mu ->
  exists M x, irr_matrix o sigma = Ret M /\ irr_character o mu = Ret x /\ x = trace (io_d o) (m_at M).
Proof. exact character_is_trace. Qed.
Print Assumptions C37_character_is_the_trace.

(* r = q p q^-1 has the same trace as p *)
Theorem C37_trace_is_a_class_function : forall n lambda o p q qi r,
  is_part n lambda -> 1 <= n -> irr_new lambda = Ret o -> is_perm n p -> is_perm n q ->
  is_inverse n q qi -> (exists s, is_mult n p qi s /\ is_mult n q s r) ->
  exists M N, irr_matrix o p = Ret M /\ irr_matrix o r = Ret N /\ trace (io_d o) (m_at M) = trace (io_d o) (m_at N).
Proof. exact conjugates_same_trace. Qed.
Print Assumptions C37_trace_is_a_class_function.

Theorem C37_value_at_the_identity : forall n lambda o, is_part n lambda -> 1 <= n -> irr_new lambda = Ret o ->
  irr_character o (repeat 1 (Z.to_nat n)) = Ret (IZR (io_d o)).
Proof. exact character_at_identity. Qed.
Print Assumptions C37_value_at_the_identity.

Example C37_example : is_part 5 [3;2] /\ (exists o, irr_new [3;2] = Ret o /\ io_d o = 5) /\ cycle_type 5 [4;5;1;3;2] [3;2].
Proof.
  split; [apply decb_part; reflexivity|]. split; [eexists; split; [vm_compute; reflexivity|reflexivity]|].
  split; [apply (check_is_perm [4;5;1;3;2]); reflexivity|]. exists [[1;4;3];[5;2]]. split; [|reflexivity].
  split; [apply (check_is_perm [1;4;3;5;2]); reflexivity|].
  intros c k [<-|[<-|[]]] Hk; cbn [length] in Hk.
  - do 3 (destruct k as [|k]; [reflexivity|]). lia.
  - do 2 (destruct k as [|k]; [reflexivity|]). lia.
Qed.
