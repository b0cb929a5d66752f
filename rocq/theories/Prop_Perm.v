(* Properties C01-C06: combinatorial/Permutation.hpp. *)
From Coq Require Import ZArith List Bool Lia.
From Verif Require Import Model_Base Model_Perm Spec_Perm Proof_Base Proof_Perm Proof_PermProps.
Import ListNotations.
Open Scope Z_scope.

(* a non-trivial permutation meeting the hypotheses below *)
Example perm_example : is_perm 5 [2; 3; 1; 5; 4].
Proof.
  apply (check_is_perm [2; 3; 1; 5; 4]). reflexivity. Qed.

Theorem C01_product_is_composition : forall n p x, is_perm n p -> is_perm n x ->
  exists r, p_mul p x = Ret r /\ is_perm n r /\ forall i, 1 <= i <= n -> img r i = img p (img x i).
Proof. exact mul_is_composition. Qed.
Print Assumptions C01_product_is_composition.

Theorem C01_product_associative : forall n p q r, is_perm n p -> is_perm n q -> is_perm n r ->
  exists pq qr s, p_mul p q = Ret pq /\ p_mul q r = Ret qr /\ p_mul pq r = Ret s /\ p_mul p qr = Ret s.
Proof. exact mul_assoc. Qed.
Print Assumptions C01_product_associative.

Theorem C01_identity_neutral : forall n, 0 <= n ->
  exists e, p_identity n = Ret e /\ is_perm n e /\ (forall i, 1 <= i <= n -> img e i = i) /\
    forall p, is_perm n p -> p_mul e p = Ret p /\ p_mul p e = Ret p.
Proof. exact mul_identity. Qed.
Print Assumptions C01_identity_neutral.

Theorem C01_equality_decides : forall p x, exists b, p_eq p x = Ret b /\ (b = true <-> p = x).
Proof. exact p_eq_ok. Qed.
Print Assumptions C01_equality_decides.

Example C01_example : p_mul [2;1;3;4;5] [2;3;1;5;4] = Ret [1;3;2;5;4].
Proof. reflexivity. Qed.

Theorem C02_inverse_laws : forall n p, is_perm n p ->
  exists q e, p_inverse p = Ret q /\ p_inv p = Ret q /\ p_not p = Ret q /\ is_perm n q /\
    p_identity n = Ret e /\ p_mul p q = Ret e /\ p_mul q p = Ret e /\ p_inverse q = Ret p /\
    forall i, 1 <= i <= n -> img q (img p i) = i.
Proof. exact inverse_laws. Qed.
Print Assumptions C02_inverse_laws.

Theorem C02_inverse_of_product : forall n p q, is_perm n p -> is_perm n q ->
  exists pq ip iq r, p_mul p q = Ret pq /\ p_inverse p = Ret ip /\ p_inverse q = Ret iq /\
    p_inverse pq = Ret r /\ p_mul iq ip = Ret r.
Proof. exact inverse_product. Qed.
Print Assumptions C02_inverse_of_product.

Example C02_example : p_inverse [2;3;1;5;4] = Ret [3;1;2;5;4].
Proof. reflexivity. Qed.

Theorem C03_check_valid_decides : forall p,
  exists b, p_check_valid p = Ret b /\ (b = true <-> is_perm (zlen p) p).
Proof. exact p_check_valid_ok. Qed.
Print Assumptions C03_check_valid_decides.

Example C03_example : p_check_valid [2;3;1] = Ret true /\ p_check_valid [2;-3;1] = Ret false.
Proof. split; reflexivity. Qed.

(* "p*=x leaves p*x in p" is false of the code ... *)
Theorem C04_mul_assign_refuted : exists p x, is_perm 3 p /\ is_perm 3 x /\
  p_mul_assign p x = Ret [1; 3; 2] /\ p_mul p x = Ret [3; 2; 1].
Proof. exact mul_assign_wrong. Qed.
Print Assumptions C04_mul_assign_refuted.

(* ... it computes the product in the opposite order, *)
Theorem C04_mul_assign_is_opposite : forall n p x, is_perm n p -> is_perm n x ->
  p_mul_assign p x = p_mul x p.
Proof. exact mul_assign_is_opposite. Qed.
Print Assumptions C04_mul_assign_is_opposite.

(* so the law holds exactly for commuting permutations. *)
Theorem C04_mul_assign_partial : forall n p x, is_perm n p -> is_perm n x ->
  (p_mul_assign p x = p_mul p x <-> p_mul p x = p_mul x p).
Proof. exact mul_assign_iff_commute. Qed.
Print Assumptions C04_mul_assign_partial.

Theorem C05_transposition : forall n i j, 1 <= i <= n -> 1 <= j <= n ->
  exists t, p_transposition n i j = Ret t /\ p_of_transposition n (mkTransp i j) = Ret t /\
    is_perm n t /\ img t i = j /\ img t j = i /\
    forall k, 1 <= k <= n -> k <> i -> k <> j -> img t k = k.
Proof. exact transposition_spec. Qed.
Print Assumptions C05_transposition.

Theorem C05_contiguous_cycle : forall n a b, 1 <= a -> a <= b -> b <= n ->
  exists c, p_contiguous_cycle n a b = Ret c /\ is_perm n c /\
    (forall k, a <= k < b -> img c k = k + 1) /\ img c b = a /\
    (forall k, 1 <= k <= n -> k < a \/ b < k -> img c k = k).
Proof. exact cycle_spec. Qed.
Print Assumptions C05_contiguous_cycle.

Theorem C05_reversed_cycle_is_inverse : forall n a b, 1 <= a <= n -> 1 <= b <= n ->
  exists c d, p_contiguous_cycle n a b = Ret c /\ p_contiguous_cycle n b a = Ret d /\
    is_perm n d /\ p_inverse c = Ret d.
Proof. exact cycle_reverse_is_inverse. Qed.
Print Assumptions C05_reversed_cycle_is_inverse.

Theorem C05_cycle_is_product_of_transpositions : forall n a b, 1 <= a -> a <= b -> b <= n ->
  exists e c, p_identity n = Ret e /\ p_contiguous_cycle n a b = Ret c /\
    foldM (fun i acc => t <- p_transposition n i (i + 1) ;; p_mul acc t) (zrange a b) e = Ret c.
Proof. exact cycle_is_product. Qed.
Print Assumptions C05_cycle_is_product_of_transpositions.

Example C05_example : p_contiguous_cycle 6 2 5 = Ret [1;3;4;5;2;6] /\
  p_contiguous_cycle 6 5 2 = Ret [1;5;2;3;4;6] /\ p_transposition 4 1 3 = Ret [3;2;1;4].
Proof. repeat split; reflexivity. Qed.

(* "every constructed Permutation is a bijection" is false *)
Theorem C06_constructor_validation_refuted :
  exists x, ~ is_perm (zlen x) x /\ p_of_vector x = Ret x /\ p_of_initializer x = Ret (x, true) /\
    p_inverse x = UB /\ p_mul x x = UB.
Proof. exact constructor_accepts_garbage. Qed.
Print Assumptions C06_constructor_validation_refuted.

(* exact condition under which inverse is defined *)
Theorem C06_inverse_defined_iff_valid : forall p,
  (exists r, p_inverse p = Ret r) <-> is_perm (zlen p) p.
Proof. exact inverse_defined_iff. Qed.
Print Assumptions C06_inverse_defined_iff_valid.

(* the initializer_list constructor keeps the data and prints the warning exactly on invalid data *)
Theorem C06_initializer_warns : forall p,
  exists b, p_of_initializer p = Ret (p, b) /\ (b = false <-> is_perm (zlen p) p).
Proof. exact initializer_message. Qed.
Print Assumptions C06_initializer_warns.
