(* C103: random elements of Sn. *)
From Coq Require Import ZArith List Bool Lia Factorial.
From Verif Require Import Model_Base Model_Perm Model_Sn Model_Sn32 Model_Random Spec_Perm Spec_Random Proof_Random.
Import ListNotations.
Open Scope Z_scope.

(* whatever the state of the generator, random() returns a permutation of 1..n *)
Theorem C103_permutation : forall (G : Type) (unif : Z -> Z -> G -> Z * G) n g, 1 <= n <= 12 -> draws_in_range unif ->
  exists p g', sn_random unif n g = Ret (p, g') /\ is_perm n p.
Proof. exact @random_perm. Qed.
Print Assumptions C103_permutation.

(* if, over a list of states, the distribution draws each of 0..n!-1 from the same number c of states, then random()
   returns each permutation from c states: no permutation is favoured and none is missed *)
Theorem C103_uniform : forall (G : Type) (unif : Z -> Z -> G -> Z * G) n L c p, 1 <= n <= 12 -> draws_in_range unif ->
  equal_shares unif 0 (Z.of_nat (fact (Z.to_nat n)) - 1) L c -> is_perm n p ->
  how_many (fun g => match sn_random unif n g with Ret (q, _) => same_perm q p | _ => false end) L = c.
Proof. intros G unif n L c p Hn U S. apply random_uniform; auto. rewrite Proof_SnProps.sn_size_fact by lia. exact S. Qed.
Print Assumptions C103_uniform.

(* a series of calls: the numbers of the permutations are the numbers drawn, one draw to a call, and the
   generator is left as the draws leave it *)
Theorem C103_series : forall (G : Type) (unif : Z -> Z -> G -> Z * G) n k g, 1 <= n <= 12 -> draws_in_range unif ->
  exists ps, sn_randoms unif n k g = Ret (ps, state_after unif (sn_size n - 1) k g) /\
    Forall2 (fun e p => is_perm n p /\ sn_index n p = Ret e) (draws unif (sn_size n - 1) k g) ps.
Proof. exact @randoms_eq. Qed.
Print Assumptions C103_series.

(* from n = 13 on n! does not fit an int *)
Theorem C103_from_13_refuted : forall (G : Type) (unif : Z -> Z -> G -> Z * G) n g, 13 <= n -> sn_random unif n g = UB.
Proof. exact @random_over. Qed.
Print Assumptions C103_from_13_refuted.

Example C103_hypotheses : draws_in_range count_up /\ equal_shares count_up 0 (Z.of_nat (fact (Z.to_nat 3)) - 1) [0; 1; 2; 3; 4; 5; 6; 7; 8; 9; 10; 11] 2 /\
  sn_randoms count_up 3 4 4 = Ret ([[3; 1; 2]; [3; 2; 1]; [1; 2; 3]; [2; 1; 3]], 8).
Proof.
  split; [exact count_up_ok|]. split; [|reflexivity]. intros e He. change (0 <= e <= 5) in He.
  assert (e = 0 \/ e = 1 \/ e = 2 \/ e = 3 \/ e = 4 \/ e = 5) as H by lia. repeat (destruct H as [H|H]; [subst e; reflexivity|]). subst e; reflexivity.
Qed.
