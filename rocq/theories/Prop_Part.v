(* C12-C17: integer partitions. *)
From Coq Require Import ZArith List Bool Sorted.
From Verif Require Import Model_Base Model_Part Model_Comb Spec_Part Proof_Part Proof_PartProps.
Import ListNotations.
Open Scope Z_scope.

Theorem C12_partitions_complete_and_ordered : forall n, 1 <= n ->
  exists L, integer_partitions n = Ret L /\ NoDup L /\ (forall p, In p L <-> is_part n p) /\
    StronglySorted lex_greater L /\ StronglySorted (fun a b => ip_lt a b = Ret true) L.
Proof. exact partitions_complete. Qed.
Print Assumptions C12_partitions_complete_and_ordered.

Example C12_example : integer_partitions 5 =
  Ret [[5];[4;1];[3;2];[3;1;1];[2;2;1];[2;1;1;1];[1;1;1;1;1]].
Proof. reflexivity. Qed.

Theorem C13_less_is_strict_total_order : forall n,
  (forall a, is_part n a -> ip_lt a a = Ret false) /\
  (forall a b c, is_part n a -> is_part n b -> is_part n c ->
     ip_lt a b = Ret true -> ip_lt b c = Ret true -> ip_lt a c = Ret true) /\
  (forall a b, is_part n a -> is_part n b ->
     (ip_lt a b = Ret true /\ ip_lt b a = Ret false /\ ip_eq a b = false) \/
     (ip_lt a b = Ret false /\ ip_lt b a = Ret true /\ ip_eq a b = false) \/
     (ip_lt a b = Ret false /\ ip_lt b a = Ret false /\ ip_eq a b = true /\ a = b)).
Proof. exact lt_strict_total_order. Qed.
Print Assumptions C13_less_is_strict_total_order.

(* "less" is lexicographically greater *)
Theorem C13_less_is_lexicographic : forall n a b, is_part n a -> is_part n b ->
  exists v, ip_lt a b = Ret v /\ (v = true <-> lex_greater a b).
Proof. exact ip_lt_ok. Qed.
Print Assumptions C13_less_is_lexicographic.

Theorem C13_mixed_sizes_abort : forall a b, zsum a <> zsum b -> ip_lt a b = Abort.
Proof. exact lt_mixed_aborts. Qed.
Print Assumptions C13_mixed_sizes_abort.

Example C13_example : ip_lt [3;1;1] [2;2;1] = Ret true /\ ip_lt [2;2;1] [3;1;1] = Ret false /\ ip_lt [3;1] [2;2;1] = Abort.
Proof. repeat split; reflexivity. Qed.

(* == compares the row lengths, trailing zeros ignored *)
Theorem C14_equality_compares_rows : forall a b,
  ip_eq a b = true <-> (forall i, 0 <= i -> row a i = row b i).
Proof. exact ip_eq_rows. Qed.
Print Assumptions C14_equality_compares_rows.

Theorem C14_equal_partitions_hash_equal : forall n a b, is_part n a -> (forall x, In x b -> 1 <= x) ->
  ip_eq a b = true -> ip_hash a = ip_hash b.
Proof. exact eq_hash. Qed.
Print Assumptions C14_equal_partitions_hash_equal.

(* not so for arrays with trailing zeros *)
Theorem C14_equal_arrays_hash_refuted : exists a b, ip_eq a b = true /\ ip_hash a <> ip_hash b.
Proof. exact eq_hash_fails. Qed.
Print Assumptions C14_equal_arrays_hash_refuted.

Theorem C15_extendable_iff_partition : forall n l i, is_part n l -> 0 <= i <= Z.of_nat (length l) ->
  exists b q, ip_extendable l i = Ret b /\ ip_add l i 1 = Ret q /\
    (b = true <-> is_part (n + 1) q) /\ (b = true -> box_added l q i /\ ip_remove q i 1 = Ret l).
Proof. exact extendable_iff. Qed.
Print Assumptions C15_extendable_iff_partition.

Theorem C15_shortenable_iff_partition : forall n l i, is_part n l -> 0 <= i < Z.of_nat (length l) ->
  exists b q, ip_shortenable l i = Ret b /\ ip_remove l i 1 = Ret q /\
    (b = true <-> is_part (n - 1) q) /\ (b = true -> box_added q l i /\ ip_add q i 1 = Ret l).
Proof. exact shortenable_iff. Qed.
Print Assumptions C15_shortenable_iff_partition.

Example C15_example : ip_extendable [3;2;2;1] 2 = Ret false /\ ip_extendable [3;2;2;1] 1 = Ret true /\
  ip_add [3;2;2;1] 1 1 = Ret [3;3;2;1] /\ ip_shortenable [3;2;2;1] 1 = Ret false /\ ip_remove [3;2;2;1] 3 1 = Ret [3;2;2].
Proof. repeat split; reflexivity. Qed.

Theorem C16_parents_exact : forall n l, is_part n l -> 1 <= n ->
  exists ps, ip_parents l = Ret ps /\ cb_parents l = Ret ps /\ NoDup ps /\
    (forall mu, In mu ps <-> is_part (n - 1) mu /\ contained mu l).
Proof. exact parents_exact. Qed.
Print Assumptions C16_parents_exact.

(* the removed rows come in decreasing order *)
Theorem C16_parents_order : forall n l, is_part n l -> 1 <= n ->
  exists ps rs, ip_parents l = Ret ps /\ StronglySorted Z.gt rs /\ Forall2 (fun mu r => box_added mu l r) ps rs.
Proof. exact parents_order. Qed.
Print Assumptions C16_parents_order.

Example C16_example : ip_parents [3;3;2;1] = Ret [[3;3;2];[3;3;1;1];[3;2;2;1]] /\ ip_parents [1] = Ret [[]].
Proof. split; reflexivity. Qed.

(* the box in row r of lambda is in column (row lambda r - 1), counting from 0 *)
Theorem C17_content_of_added_box : forall n lambda mu r,
  is_part (n + 1) lambda -> is_part n mu -> box_added mu lambda r ->
  ip_content_of_difference lambda mu = Ret ((row lambda r - 1) - r).
Proof. exact content_ok. Qed.
Print Assumptions C17_content_of_added_box.

Theorem C17_throws_on_wrong_sizes : forall lambda mu,
  zsum lambda <> zsum mu + 1 \/ Z.of_nat (length lambda) < Z.of_nat (length mu) ->
  ip_content_of_difference lambda mu = Throw.
Proof. exact content_throws. Qed.
Print Assumptions C17_throws_on_wrong_sizes.

(* pairs of the right sizes that are not nested are answered, not rejected *)
Theorem C17_not_nested_is_accepted : exists lambda mu c, is_part 4 lambda /\ is_part 3 mu /\
  ~ contained mu lambda /\ ip_content_of_difference lambda mu = Ret c.
Proof. exact content_not_nested. Qed.
Print Assumptions C17_not_nested_is_accepted.

Example C17_example : ip_content_of_difference [3;2;2] [3;2;1] = Ret (-1) /\ ip_content_of_difference [3;1] [3] = Ret (-1) /\
  ip_content_of_difference [3;1] [2] = Throw.
Proof. repeat split; reflexivity. Qed.
