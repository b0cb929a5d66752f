(* C100 *)
From Coq Require Import ZArith List Lia.
From Verif Require Import Model_Base Model_Part Model_Hash Spec_Part Spec_Hash.
From Verif Require Import Proof_Hash.
Import ListNotations.
Open Scope Z_scope.

Theorem C100_partition_keys : forall (V : Type) cached nb (h : list (mop (list Z) V)), (1 <= nb)%nat -> keys_ok shape h ->
  is_map shape h (ut_find ip_hash ip_eq cached (ut_run ip_hash ip_eq cached nb h)) (ut_size (ut_run ip_hash ip_eq cached nb h)).
Proof. intros V. exact map_partitions. Qed.
Print Assumptions C100_partition_keys.

Theorem C100_pair_keys : forall (V : Type) cached nb (h : list (mop (list Z * list Z) V)), (1 <= nb)%nat -> keys_ok shape2 h ->
  is_map shape2 h (ut_find hash_pair eq_pair cached (ut_run hash_pair eq_pair cached nb h)) (ut_size (ut_run hash_pair eq_pair cached nb h)).
Proof. intros V. exact map_pairs. Qed.
Print Assumptions C100_pair_keys.

Theorem C100_triple_keys : forall (V : Type) cached nb (h : list (mop (list Z * list Z * list Z) V)), (1 <= nb)%nat -> keys_ok shape3 h ->
  is_map shape3 h (ut_find hash_triple eq_triple cached (ut_run hash_triple eq_triple cached nb h)) (ut_size (ut_run hash_triple eq_triple cached nb h)).
Proof. intros V. exact map_triples. Qed.
Print Assumptions C100_triple_keys.

Theorem C100_transform_keys : forall (V : Type) cached nb (h : list (mop (Z * Z) V)), (1 <= nb)%nat -> keys_ok (fun _ => True) h ->
  is_map (fun _ => True) h (ut_find hash_sig eq_sig cached (ut_run hash_sig eq_sig cached nb h)) (ut_size (ut_run hash_sig eq_sig cached nb h)).
Proof. intros V. exact map_sigs. Qed.
Print Assumptions C100_transform_keys.

(* arrays with trailing zeros are ==, but a table that compares stored hash codes keeps them apart at every number of buckets *)
Theorem C100_array_keys_refuted : forall (V : Type) nb (v w : V), (1 <= nb)%nat ->
  ip_eq [1] [1; 0] = true /\
  ut_find ip_hash ip_eq true (ut_run ip_hash ip_eq true nb [MPut [1] v]) [1; 0] = None /\
  ut_size (ut_run ip_hash ip_eq true nb [MPut [1] v; MPut [1; 0] w]) = 2%nat.
Proof. intros V. exact array_lost. Qed.
Print Assumptions C100_array_keys_refuted.

(* Non-vacuity: a history with collisions, an overwritten key and a change of the number of buckets. *)
Definition hist : list (mop (list Z) Z) := [MPut [2; 1] 5; MPut [3] 6; MRehash 3; MPut [2; 1] 7; MPut [1; 1; 1] 8; MRehash 1].
Example C100_hypotheses : keys_ok shape hist.
Proof.
  assert (shape [2; 1] /\ shape [3] /\ shape [1; 1; 1]) as (A & B & C).
  { split; [|split]; exists 3; (split; [|split; [|reflexivity]]); try (intros x I; cbn in I; intuition lia); repeat constructor; lia. }
  split; [intros k v I|intros nb I]; cbn in I; repeat (destruct I as [I|I]; [try discriminate I; injection I; intros; subst; auto|]); try destruct I; lia.
Qed.
Example C100_run : map (ut_find ip_hash ip_eq true (ut_run ip_hash ip_eq true 2 hist)) [[2; 1]; [3]; [1; 1; 1]; [2; 2]] = [Some 7; Some 6; Some 8; None]
  /\ ut_size (ut_run ip_hash ip_eq true 2 hist) = 3%nat.
Proof. split; reflexivity. Qed.
