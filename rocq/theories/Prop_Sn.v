(* C07-C11: enumeration of Sn and of Sn/Sm. *)
From Coq Require Import ZArith List Factorial.
From Verif Require Import Model_Base Model_Perm Model_Sn Model_Sn32 Spec_Perm Proof_Perm Proof_SnProps.
Import ListNotations.
Open Scope Z_scope.

Theorem C07_size_is_factorial : forall n, 0 <= n -> sn_size n = Z.of_nat (fact (Z.to_nat n)).
Proof. exact sn_size_fact. Qed.
Print Assumptions C07_size_is_factorial.

Theorem C07_element_index_bijection : forall n, 1 <= n ->
  (forall i, 0 <= i < sn_size n ->
     exists s, sn_element n i = Ret s /\ is_perm n s /\ sn_index n s = Ret i) /\
  (forall s, is_perm n s ->
     exists i, sn_index n s = Ret i /\ 0 <= i < sn_size n /\ sn_element n i = Ret s).
Proof. exact sn_bijection. Qed.
Print Assumptions C07_element_index_bijection.

(* indices at or above n! are not rejected: the call leaves the array *)
Theorem C07_element_out_of_range : forall n e, 2 <= n -> sn_size n <= e -> sn_element n e = UB.
Proof. exact sn_element_out. Qed.
Print Assumptions C07_element_out_of_range.

Example C07_example : sn_element 4 17 = Ret [3;4;2;1] /\ sn_index 4 [3;4;2;1] = Ret 17 /\ sn_size 4 = 24.
Proof. repeat split; reflexivity. Qed.

Theorem C08_first_element_is_identity : forall n, 1 <= n -> sn_element n 0 = p_identity n.
Proof. exact sn_element_zero. Qed.
Print Assumptions C08_first_element_is_identity.

(* element a*(n-1)!+r is element r of S(n-1) with n inserted so that a entries are to its right *)
Theorem C08_enumeration_is_nested : forall n a r, 2 <= n -> 0 <= a < n -> 0 <= r < sn_size (n - 1) ->
  exists q, sn_element (n - 1) r = Ret q /\
    sn_element n (a * sn_size (n - 1) + r) =
      Ret (firstn (Z.to_nat (n - 1 - a)) q ++ [n] ++ skipn (Z.to_nat (n - 1 - a)) q).
Proof. exact sn_nested. Qed.
Print Assumptions C08_enumeration_is_nested.

Theorem C08_first_block_is_smaller_group : forall n r, 2 <= n -> 0 <= r < sn_size (n - 1) ->
  exists q, sn_element (n - 1) r = Ret q /\ sn_element n r = Ret (q ++ [n]).
Proof. exact sn_nested_first. Qed.
Print Assumptions C08_first_block_is_smaller_group.

Example C08_example : sn_element 3 4 = Ret [3;1;2] /\ sn_element 4 (2 * sn_size 3 + 4) = Ret [3;4;1;2].
Proof. split; reflexivity. Qed.

(* for n<=12 no arithmetic step of order, element, index leaves 32-bit int: the checked versions
   agree with the unbounded ones *)
Theorem C09_int32_suffices_up_to_12 : forall n, 1 <= n <= 12 ->
  sn_size32 n = Ret (sn_size n) /\
  (forall e, 0 <= e < sn_size n -> sn_element32 n e = sn_element n e) /\
  (forall s, is_perm n s -> sn_index32 n s = sn_index n s) /\
  (forall m e k, 1 <= m <= n -> snsm_size n m = Ret k -> 0 <= e < k ->
     snsm_element32 n m e = snsm_element n m e).
Proof. exact int32_sufficient. Qed.
Print Assumptions C09_int32_suffices_up_to_12.

Theorem C09_order_overflows_from_13 : forall n, 13 <= n -> sn_size32 n = UB.
Proof. exact zfact32_overflow. Qed.
Print Assumptions C09_order_overflows_from_13.

Example C09_example : sn_index32 4 [4;3;2;1] = Ret 23 /\ sn_element32 12 479001599 = Ret [12;11;10;9;8;7;6;5;4;3;2;1].
Proof. split; vm_compute; reflexivity. Qed.

Theorem C10_quotient_round_trip : forall n m, 1 <= m <= n ->
  exists k, snsm_size n m = Ret k /\ k * sn_size m = sn_size n /\
   (forall i, 0 <= i < k ->
      exists s, snsm_element n m i = Ret s /\ is_perm n s /\ snsm_index n m s = Ret i) /\
   (forall s, is_perm n s -> exists i, snsm_index n m s = Ret i /\ 0 <= i < k).
Proof. exact snsm_round_trip. Qed.
Print Assumptions C10_quotient_round_trip.

(* the quotient index is the group index divided by m!: blocks of m! consecutive elements *)
Theorem C10_quotient_refines_group_order : forall n m s i, 1 <= m <= n -> is_perm n s ->
  sn_index n s = Ret i -> snsm_index n m s = Ret (i / sn_size m).
Proof. exact snsm_refines_sn. Qed.
Print Assumptions C10_quotient_refines_group_order.

Example C10_example : snsm_element 4 2 7 = Ret [1;4;3;2] /\ snsm_index 4 2 [1;4;3;2] = Ret 7 /\ snsm_size 4 2 = Ret 12.
Proof. repeat split; reflexivity. Qed.

(* equal quotient index exactly for s, t with t = r*s, r in S_m: right cosets S_m*s *)
Theorem C11_index_separates_right_cosets : forall n m s t, 1 <= m <= n -> is_perm n s -> is_perm n t ->
  (snsm_index n m s = snsm_index n m t <->
   exists r, is_perm n r /\ (forall k, m < k <= n -> img r k = k) /\ p_mul r s = Ret t).
Proof. exact snsm_right_cosets. Qed.
Print Assumptions C11_index_separates_right_cosets.

(* the documented left cosets s*S_m are not what the index separates *)
Theorem C11_left_cosets_refuted : exists n m s t r, 1 <= m <= n /\ is_perm n s /\ is_perm n t /\ is_perm n r /\
  (forall k, m < k <= n -> img r k = k) /\ p_mul s r = Ret t /\ snsm_index n m s <> snsm_index n m t.
Proof. exact snsm_left_cosets_fail. Qed.
Print Assumptions C11_left_cosets_refuted.
