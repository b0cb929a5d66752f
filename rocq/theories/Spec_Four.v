(* Sums over the symmetric group, independently of the model. *)
From Coq Require Import ZArith List Reals.
From Verif Require Import Spec_Perm Spec_Rep.
Import ListNotations.
Open Scope Z_scope.

(* L lists every permutation of 1..n exactly once *)
Definition lists_Sn (n : Z) (L : list (list Z)) : Prop := NoDup L /\ forall p, In p L <-> is_perm n p.

(* the sum of f over the entries of L *)
Definition sum_over {A} (L : list A) (f : A -> R) : R := fold_right Rplus 0%R (map f L).

(* where block number c starts when the blocks have sizes ds *)
Definition offset (ds : list Z) (c : nat) : Z := fold_right Z.add 0 (firstn c ds).

(* M is the block diagonal matrix with square blocks Bs 0, Bs 1, ... of sizes ds *)
Definition block_diagonal (ds : list Z) (Bs : nat -> Z -> Z -> R) (M : Z -> Z -> R) : Prop :=
  forall c c' a b, (c < length ds)%nat -> (c' < length ds)%nat -> 0 <= a < nth c ds 0 -> 0 <= b < nth c' ds 0 ->
    M (offset ds c + a) (offset ds c' + b) = if Nat.eq_dec c c' then Bs c a b else 0%R.

(* in the list of tableaux, of two pairs exchanged by tau neither ends before the other starts *)
Definition pairs_overlap (tabs : list (list (list Z))) (tau : Z) : Prop :=
  forall i j i' j', (i < j < length tabs)%nat -> (i' < j' < length tabs)%nat ->
    exchanged tau (nth i tabs []) (nth j tabs []) -> exchanged tau (nth i' tabs []) (nth j' tabs []) -> (i' < j)%nat.
