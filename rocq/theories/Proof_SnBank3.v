(* nirreps() is the number of irreps. *)
From Coq Require Import ZArith List Bool Lia Sorted Permutation.
From Verif Require Import Model_Base Model_Sn Model_Part Model_Comb Model_Tab Model_SnBank Spec_Perm Spec_Part Spec_Tab Spec_SnBank
  Proof_Base Proof_Perm Proof_Part Proof_PartProps Proof_SnBank Proof_SnBankProps.
Import ListNotations.
Open Scope Z_scope.

Lemma as_many qs n : Forall legal_call qs -> 1 <= n -> exists as1 s ps s' s'', srun qs ss0 = Ret (as1, s) /\
  sstep (SAll n) s = Ret (SPtrs ps, s') /\ NoDup ps /\ sstep (SNcc n) s = Ret (SInt (Z.of_nat (length ps)), s'').
Proof.
  intros H Hn. destruct (partitions_complete n Hn) as (L & E & N & I & _). destruct (cclass_history qs n L H Hn E) as (a1 & s & R & (s1 & C) & _).
  destruct (irreps_enumerate qs [] n H (Forall_nil _) Hn) as (a2 & t & ps & s2 & a3 & s3 & ls & R' & A & R3 & N' & I' & F & _).
  rewrite R in R'. injection R' as <- <-. exists a1, s, ps, s2, s1. split; [auto|]. split; [auto|].
  assert (length ps = length L) as ->.
  { assert (length ps = length ls) as -> by (clear - F; induction F; cbn; auto). apply Permutation_length, NoDup_Permutation; auto. intros x. rewrite I, I'. tauto. }
  split; [|auto]. clear - N' F. induction F as [|p l ps ls Hp F IH]; [constructor|]. inversion N'; subst. constructor; [|auto].
  intros Hi. apply H1. clear - Hp F Hi. induction F as [|q m ps ls Hq F IH]; [contradiction|]. destruct Hi as [->|Hi]; [left|right; auto].
  destruct Hp as (ts & Hp & _), Hq as (us & Hq & _). rewrite Hp in Hq. injection Hq as -> _. auto.
Qed.
