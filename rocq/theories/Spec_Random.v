(* What a uniform integer distribution over a generator promises. *)
From Coq Require Import ZArith List Bool.
Import ListNotations.
Open Scope Z_scope.

(* a draw from a..b lies in a..b; g is the state of the generator, and a draw returns the next state *)
Definition draws_in_range {G : Type} (unif : Z -> Z -> G -> Z * G) : Prop :=
  forall a b g, a <= b -> a <= fst (unif a b g) <= b.

(* how many of the states in L satisfy P *)
Definition how_many {G : Type} (P : G -> bool) (L : list G) : nat := length (filter P L).

(* among the states in L, each of a..b is drawn from the same number c of states *)
Definition equal_shares {G : Type} (unif : Z -> Z -> G -> Z * G) (a b : Z) (L : list G) (c : nat) : Prop :=
  forall e, a <= e <= b -> how_many (fun g => fst (unif a b g) =? e) L = c.

Definition same_perm (p q : list Z) : bool := if list_eq_dec Z.eq_dec p q then true else false.

(* the numbers drawn by k draws from 0..b, each starting from the state the one before left *)
Fixpoint draws {G : Type} (unif : Z -> Z -> G -> Z * G) (b : Z) (k : nat) (g : G) : list Z :=
  match k with O => [] | S k' => fst (unif 0 b g) :: draws unif b k' (snd (unif 0 b g)) end.
(* and the state they leave *)
Fixpoint state_after {G : Type} (unif : Z -> Z -> G -> Z * G) (b : Z) (k : nat) (g : G) : G :=
  match k with O => g | S k' => state_after unif b k' (snd (unif 0 b g)) end.
