(* The sign of a permutation and the transposed shape, independently of the model. *)
From Coq Require Import ZArith List Bool Reals.
From Verif Require Import Spec_Part.
Import ListNotations.
Open Scope Z_scope.

(* pairs of places i < j with p(i) > p(j) *)
Fixpoint inversions (p : list Z) : nat :=
  match p with
  | [] => O
  | x :: r => (length (filter (fun y => (y <? x)%Z) r) + inversions r)%nat
  end.

(* 1 for an even, -1 for an odd permutation *)
Definition sign (p : list Z) : Z := if Nat.even (inversions p) then 1 else -1.

(* the shape with rows and columns exchanged: its row c is as long as the number of rows of l that reach past column c *)
Definition transposed (l : list Z) : list Z :=
  map (fun c => Z.of_nat (length (filter (fun x => Z.of_nat c <? x) l))) (seq 0 (Z.to_nat (row l 0))).

(* the shape of one column *)
Definition column (n : Z) : list Z := repeat 1 (Z.to_nat n).
