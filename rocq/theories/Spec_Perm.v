(* What a permutation is.  Independent of the model. *)
From Coq Require Import ZArith List.
Import ListNotations.
Open Scope Z_scope.

(* [l] in one-line notation is a bijection of {1..n}: n entries, all between 1 and n, no repetition. *)
Definition is_perm (n : Z) (l : list Z) : Prop :=
  Z.of_nat (length l) = n /\ (forall v, In v l -> 1 <= v <= n) /\ NoDup l.

(* value of the permutation l at the point i (meaningful for 1<=i<=n) *)
Definition img (l : list Z) (i : Z) : Z := nth (Z.to_nat (i - 1)) l 0.
