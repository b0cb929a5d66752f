(* Properties C29, C30 and C70: conjugacy classes and their sizes, the three-way ordering helper:
   Sn/Sn.hpp class_size, include/Snob2_base.hpp order. *)
From Coq Require Import ZArith List Bool Lia Permutation.
From Verif Require Import Model_Base Model_Sn Model_Part Model_Comb Model_Class Model_Class32.
From Verif Require Import Spec_Perm Spec_Part Spec_Tab Spec_Rep Spec_Four.
From Verif Require Import Proof_Base Proof_Perm Proof_Part Proof_PartProps Proof_Type Proof_TabProps Proof_Class2 Proof_Class3 Proof_Class32.
Import ListNotations.
Open Scope Z_scope.

(* class_size(mu) is the number of permutations of cycle type mu; such a list K exists *)
Theorem C29_class_size : forall n mu K, 1 <= n -> is_part n mu -> NoDup K -> (forall p, In p K <-> cycle_type n p mu) ->
  class_size n mu = Ret (Z.of_nat (length K)).
Proof. intros n mu K Hn P. exact (class_size_counts n mu K P Hn). Qed.
Print Assumptions C29_class_size.

Theorem C29_class_can_be_listed : forall n mu, 1 <= n -> is_part n mu -> exists K, NoDup K /\ forall p, In p K <-> cycle_type n p mu.
Proof. intros n mu Hn P. destruct (class_size_ok n mu P Hn) as (K & A & B & _). exists K. auto. Qed.
Print Assumptions C29_class_can_be_listed.

(* with 32-bit int the count is the same up to n = 12; from n = 13 on the factorial does not fit, also for the small
   classes *)
Theorem C29_int_up_to_12 : forall n mu K, 1 <= n <= 12 -> is_part n mu -> NoDup K -> (forall p, In p K <-> cycle_type n p mu) ->
  class_size32 n mu = Ret (Z.of_nat (length K)).
Proof. intros n mu K Hn P N H. rewrite (class_size32_ok n mu P Hn). exact (class_size_counts n mu K P (proj1 Hn) N H). Qed.
Print Assumptions C29_int_up_to_12.

Theorem C29_int_from_13_refuted : forall n mu, 13 <= n -> is_part n mu -> class_size32 n mu = UB.
Proof. intros n mu Hn P. exact (class_size32_over n mu P Hn). Qed.
Print Assumptions C29_int_from_13_refuted.

(* the partition is not checked against the group: a partition of m asked of the group on n points, with s permutations
   of m points of that type, gives n! s / m!, although no permutation of n points has that type *)
Theorem C29_partition_of_another_number_refuted : forall n m mu K, 1 <= m -> m <> n -> is_part m mu -> NoDup K -> (forall p, In p K <-> cycle_type m p mu) ->
  class_size n mu = Ret (Z.quot (zfact n * Z.of_nat (length K)) (zfact m)) /\ forall p, ~ cycle_type n p mu.
Proof.
  intros n m mu K Hm D P N H. split; [exact (class_size_foreign n m mu K Hm P N H)|]. exact (foreign_type n m mu D P).
Qed.
Print Assumptions C29_partition_of_another_number_refuted.

(* on no points there is one permutation, of the empty type, and the answer is 0 *)
Theorem C29_no_points_refuted : class_size 0 [] = Ret 0 /\ is_part 0 [] /\ cycle_type 0 [] [].
Proof. exact class_size_empty. Qed.
Print Assumptions C29_no_points_refuted.

Example C29_example : is_part 5 [2; 2; 1] /\ class_size 5 [2; 2; 1] = Ret 15 /\ class_size 5 [5] = Ret 24 /\ class_size 5 [1; 1; 1; 1; 1] = Ret 1 /\ class_size 6 [3; 3] = Ret 40 /\ class_size 5 [2; 1] = Ret 60 /\
  class_size32 6 [3; 3] = Ret 40 /\ is_part 13 [1; 1; 1; 1; 1; 1; 1; 1; 1; 1; 1; 1; 1].
Proof. split; [apply decb_part; reflexivity|]. do 6 (split; [reflexivity|]). apply decb_part; reflexivity. Qed.

(* the sizes of all the classes add up to the order of the group *)
Theorem C70_sizes_add_up : forall n ls cs, 1 <= n -> NoDup ls -> (forall l, In l ls <-> is_part n l) ->
  Forall2 (fun l c => class_size n l = Ret c) ls cs -> zsum cs = zfact n.
Proof. exact class_sizes_add. Qed.
Print Assumptions C70_sizes_add_up.

(* every permutation lies in exactly one class *)
Theorem C70_one_class : forall n p, is_perm n p ->
  exists mu, is_part n mu /\ cycle_type n p mu /\ forall mu', is_part n mu' -> cycle_type n p mu' -> mu' = mu.
Proof. exact one_class. Qed.
Print Assumptions C70_one_class.

(* two permutations are conjugate when and only when they lie in the same class *)
Theorem C70_conjugacy : forall n p q, is_perm n p -> is_perm n q ->
  ((exists s, is_perm n s /\ forall x, 1 <= x <= n -> img s (img p x) = img q (img s x)) <->
   exists mu, is_part n mu /\ cycle_type n p mu /\ cycle_type n q mu).
Proof. exact conj_iff. Qed.
Print Assumptions C70_conjugacy.

Example C70_example : exists cs, integer_partitions 4 = Ret [[4]; [3; 1]; [2; 2]; [2; 1; 1]; [1; 1; 1; 1]] /\
  Forall2 (fun l c => class_size 4 l = Ret c) [[4]; [3; 1]; [2; 2]; [2; 1; 1]; [1; 1; 1; 1]] cs /\ zsum cs = 24.
Proof. exists [6; 8; 3; 6; 1]. split; [reflexivity|]. split; [repeat constructor|reflexivity]. Qed.
Example C70_example_perm : is_perm 3 [2; 1; 3] /\ cycle_type 3 [2; 1; 3] [2; 1].
Proof.
  assert (is_perm 3 [2; 1; 3]) as P by (apply (check_is_perm [2; 1; 3]); reflexivity). split; auto. split; auto. exists [[1; 2]; [3]]. split; [|reflexivity].
  split; [apply (check_is_perm [1; 2; 3]); reflexivity|]. intros c k [<-|[<-|[]]] Hk; cbn in Hk; [destruct k as [|[|k]]; try reflexivity; lia|destruct k as [|k]; [reflexivity|lia]].
Qed.

(* order always returns its three arguments in some order, for any comparison *)
Theorem C30_same_values : forall (K : Type) (lt : K -> K -> outcome bool) x0 x1 x2 a b c,
  order3 lt x0 x1 x2 = Ret (a, b, c) -> Permutation [a; b; c] [x0; x1; x2].
Proof. exact @order3_perm. Qed.
Print Assumptions C30_same_values.

(* on the integers: the answer is increasing unless x2 <= x1 < x0 *)
Theorem C30_sorted_integers : forall x0 x1 x2, exists a b c, order3 (fun u v => Ret (u <? v)) x0 x1 x2 = Ret (a, b, c) /\
  (a <= b <= c <-> ~ (x2 <= x1 < x0)).
Proof.
  intros x0 x1 x2. destruct (order3_sorted (fun u v => Ret (u <? v)) (fun _ => True) Z.lt x0 x1 x2) as (a & b & c & E & _ & Q); auto.
  - intros u v _ _. exists (u <? v). split; auto. apply Z.ltb_lt.
  - intros u. lia.
  - intros u v w. lia.
  - intros u v _ _. lia.
  - exists a, b, c. split; auto. split.
    + intros H K. apply (proj1 Q); lia.
    + intros H. assert (~ b < a /\ ~ c < b) as K; [apply Q; lia|lia].
Qed.
Print Assumptions C30_sorted_integers.

(* on the partitions of n, with the comparison of IntegerPartition *)
Theorem C30_sorted_partitions : forall n x0 x1 x2, is_part n x0 -> is_part n x1 -> is_part n x2 ->
  exists a b c, order3 ip_lt x0 x1 x2 = Ret (a, b, c) /\ Permutation [a; b; c] [x0; x1; x2] /\
  ((~ lex_greater b a /\ ~ lex_greater c b) <-> ~ (~ lex_greater x1 x2 /\ lex_greater x1 x0)).
Proof. intros n x0 x1 x2. exact (order3_sorted ip_lt (is_part n) lex_greater x0 x1 x2 (hlt n) lex_irrefl lex_trans (htot n)). Qed.
Print Assumptions C30_sorted_partitions.

Theorem C30_sorts_refuted : ~ (forall x0 x1 x2, exists a b c, order3 (fun u v => Ret (u <? v)) x0 x1 x2 = Ret (a, b, c) /\ a <= b <= c).
Proof. intros H. destruct (H 3 2 1) as (a & b & c & E & L). cbv in E. injection E as <- <- <-. lia. Qed.
Print Assumptions C30_sorts_refuted.

Example C30_example : order3 (fun u v => Ret (u <? v)) 3 2 1 = Ret (1, 3, 2) /\ order3 (fun u v => Ret (u <? v)) 2 3 1 = Ret (1, 2, 3) /\
  order3 ip_lt [1; 1; 1] [2; 1] [3] = Ret ([3], [1; 1; 1], [2; 1]).
Proof. repeat split; reflexivity. Qed.
