(* What a map answers after a history of assignments, whatever it is made of. *)
From Coq Require Import ZArith List.
From Verif Require Import Spec_Part.
Import ListNotations.
Open Scope Z_scope.

(* m[k]=v; and a change of the number of buckets, which the container may make at any time *)
Inductive mop (K V : Type) := MPut (k : K) (v : V) | MRehash (nb : nat).
Arguments MPut {K V}. Arguments MRehash {K V}.

(* v is what the last assignment to a key equal to k stored *)
Definition last_put {K V} (same : K -> K -> Prop) (h : list (mop K V)) (k : K) (v : V) : Prop :=
  exists h1 k1 h2, h = h1 ++ MPut k1 v :: h2 /\ same k1 k /\ forall k2 w, In (MPut k2 w) h2 -> ~ same k2 k.

(* there was no assignment to a key equal to k *)
Definition never_put {K V} (same : K -> K -> Prop) (h : list (mop K V)) (k : K) : Prop :=
  forall k2 w, In (MPut k2 w) h -> ~ same k2 k.

(* every key of the history has the property ok, and the numbers of buckets are not zero *)
Definition keys_ok {K V} (ok : K -> Prop) (h : list (mop K V)) : Prop :=
  (forall k v, In (MPut k v) h -> ok k) /\ forall nb, In (@MRehash K V nb) h -> (1 <= nb)%nat.

(* keys made of partitions *)
Definition shape (l : list Z) : Prop := exists n, is_part n l.
Definition shape2 (x : list Z * list Z) : Prop := shape (fst x) /\ shape (snd x).
Definition shape3 (x : list Z * list Z * list Z) : Prop := shape (fst (fst x)) /\ shape (snd (fst x)) /\ shape (snd x).

(* ks lists the different keys of the history, each once *)
Definition keys_of {K V} (h : list (mop K V)) (ks : list K) : Prop := NoDup ks /\ forall k, In k ks <-> exists v, In (MPut k v) h.

(* a finite map: what every lookup answers and how many keys there are *)
Definition is_map {K V} (ok : K -> Prop) (h : list (mop K V)) (find : K -> option V) (size : nat) : Prop :=
  (forall k, ok k -> (forall v, find k = Some v <-> last_put eq h k v) /\ (find k = None <-> never_put eq h k)) /\
  forall ks, keys_of h ks -> size = length ks.
