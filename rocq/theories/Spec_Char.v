(* Characters, independently of the model's character bank. *)
From Coq Require Import ZArith List Reals.
From Verif Require Import Model_Base Model_Part Model_Comb Model_Tab Model_Irrep Model_Char.
From Verif Require Import Spec_Perm Spec_Part Spec_Rep.
Import ListNotations.
Open Scope Z_scope.

(* f is the character of the irrep lambda of S_n: its value at mu is the trace of the matrix of every permutation of cycle
   type mu, and its value at number i is the value at class number i *)
Definition character_of (n : Z) (lambda : list Z) (f : cfun) : Prop :=
  cf_n f = n /\
  (forall mu sigma, is_part n mu -> cycle_type n sigma mu ->
    exists o M, irr_new lambda = Ret o /\ irr_matrix o sigma = Ret M /\ cf_atl f mu = Ret (trace (io_d o) (m_at M))) /\
  (forall L i mu, integer_partitions n = Ret L -> nth_error L i = Some mu -> cf_at f (Z.of_nat i) = cf_atl f mu) /\
  (forall L, integer_partitions n = Ret L -> length (cf_v f) = length L).

(* the requests name partitions, groups with n >= 1 and numbers of irreps *)
Definition legal_chq (q : chq) : Prop :=
  match q with
  | ChNew l => exists n, 1 <= n /\ is_part n l
  | ChOf n l => 1 <= n /\ is_part n l
  | ChAt n i => 1 <= n /\ exists L, integer_partitions n = Ret L /\ 0 <= i < Z.of_nat (length L)
  | ChNo n i => 1 <= n
  end.

(* K lists the partitions of n, each once *)
Definition lists_parts (n : Z) (K : list (list Z)) : Prop := NoDup K /\ forall l, In l K <-> is_part n l.

(* f is a class function of S_n: one value for each class *)
Definition class_function (n : Z) (f : cfun) : Prop :=
  cf_n f = n /\ forall L, integer_partitions n = Ret L -> length (cf_v f) = length L.
