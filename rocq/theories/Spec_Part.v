(* Integer partitions, independently of the model. *)
From Coq Require Import ZArith List Sorted.
Import ListNotations.
Open Scope Z_scope.

Definition zsum (l : list Z) : Z := fold_right Z.add 0 l.

(* l is a partition of n: positive parts, weakly decreasing, summing to n *)
Definition is_part (n : Z) (l : list Z) : Prop :=
  (forall x, In x l -> 1 <= x) /\ StronglySorted Z.ge l /\ zsum l = n.

(* length of row i (rows numbered from 0; rows beyond the last are empty) *)
Definition row (l : list Z) (i : Z) : Z := nth (Z.to_nat i) l 0.

(* the Young diagram of mu lies inside that of lambda *)
Definition contained (mu lambda : list Z) : Prop := forall i, 0 <= i -> row mu i <= row lambda i.

(* mu with one box added in row r is lambda *)
Definition box_added (mu lambda : list Z) (r : Z) : Prop :=
  0 <= r /\ row lambda r = row mu r + 1 /\ forall i, 0 <= i -> i <> r -> row lambda i = row mu i.

(* lexicographic comparison: a is larger than b at the first difference *)
Definition lex_greater (a b : list Z) : Prop :=
  exists i, 0 <= i /\ row b i < row a i /\ forall j, 0 <= j < i -> row a j = row b j.
