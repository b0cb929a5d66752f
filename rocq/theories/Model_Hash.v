(* Models the hash functions of combinatorial/IntegerPartition.hpp and Sn/ClausenFFTObj.hpp, and std::unordered_map
   as the caches of the library use it: operator[] to store, find to look up.  The standard does not say how many
   buckets there are, when their number changes, or whether the hash codes are stored with the entries and compared
   before the keys; all of these are parameters here. *)
From Coq Require Import ZArith List Bool.
From Verif Require Import Model_Base Model_Part Spec_Hash.
Import ListNotations.
Open Scope Z_scope.

(* x<<1 and hash<int> for a 64-bit size_t *)
Definition shl1 (x : Z) : Z := (2 * x) mod 2 ^ 64.
Definition hash_int (x : Z) : Z := x mod 2 ^ 64.

(* IntegerPartition.hpp 272-281: hash<pair<IntegerPartition,IntegerPartition>> *)
Definition hash_pair (x : part * part) : Z := Z.lxor (shl1 (ip_hash (fst x))) (ip_hash (snd x)).
(* operator== of std::pair *)
Definition eq_pair (x y : part * part) : bool := ip_eq (fst x) (fst y) && ip_eq (snd x) (snd y).

(* IntegerPartition.hpp 284-294: hash<tuple<IntegerPartition,IntegerPartition,IntegerPartition>> *)
Definition hash_triple (x : part * part * part) : Z :=
  Z.lxor (Z.lxor (shl1 (ip_hash (fst (fst x)))) (shl1 (ip_hash (snd (fst x))))) (ip_hash (snd x)).
(* operator== of std::tuple *)
Definition eq_triple (x y : part * part * part) : bool :=
  ip_eq (fst (fst x)) (fst (fst y)) && ip_eq (snd (fst x)) (snd (fst y)) && ip_eq (snd x) (snd y).

(* ClausenFFTObj.hpp 133-137: operator== of ClausenFFTobjSignature *)
Definition eq_sig (x y : Z * Z) : bool := if negb (fst x =? fst y) then false else if negb (snd x =? snd y) then false else true.
(* ClausenFFTObj.hpp 141-151: its hash *)
Definition hash_sig (x : Z * Z) : Z := Z.lxor (shl1 (hash_int (fst x))) (hash_int (snd x)).

(* std::unordered_map: the buckets, each a list of entries with their hash codes *)
Section Table.
  Context {K V : Type} (hash : K -> Z) (eq : K -> K -> bool) (cached : bool).

  Definition bucket (nb : nat) (h : Z) : nat := Z.to_nat (h mod Z.of_nat nb).

  (* an entry matches a key *)
  Definition hit (k : K) (e : Z * K * V) : bool :=
    (if cached then fst (fst e) =? hash k else true) && eq (snd (fst e)) k.

  (* find *)
  Definition ut_find (t : list (list (Z * K * V))) (k : K) : option V :=
    match find (hit k) (nth (bucket (length t) (hash k)) t []) with Some e => Some (snd e) | None => None end.

  (* operator[] and an assignment, in one bucket: the key that is there stays *)
  Fixpoint put_in (b : list (Z * K * V)) (k : K) (v : V) : list (Z * K * V) :=
    match b with
    | [] => [(hash k, k, v)]
    | e :: b' => if hit k e then (fst e, v) :: b' else e :: put_in b' k v
    end.
  Fixpoint at_bucket (t : list (list (Z * K * V))) (i : nat) (f : list (Z * K * V) -> list (Z * K * V)) : list (list (Z * K * V)) :=
    match t, i with
    | [], _ => []
    | b :: t', O => f b :: t'
    | b :: t', S i' => b :: at_bucket t' i' f
    end.
  Definition ut_put (t : list (list (Z * K * V))) (k : K) (v : V) : list (list (Z * K * V)) :=
    at_bucket t (bucket (length t) (hash k)) (fun b => put_in b k v).

  (* every entry goes to its bucket among nb; the hash is the stored one or is computed again *)
  Definition ut_rehash (nb : nat) (t : list (list (Z * K * V))) : list (list (Z * K * V)) :=
    fold_left (fun t e => at_bucket t (bucket nb (if cached then fst (fst e) else hash (snd (fst e)))) (fun b => b ++ [e])) (concat t) (repeat [] nb).

  Definition ut_step (t : list (list (Z * K * V))) (o : mop K V) : list (list (Z * K * V)) :=
    match o with MPut k v => ut_put t k v | MRehash nb => ut_rehash nb t end.
  (* an empty map with nb buckets, and a history *)
  Definition ut_run (nb : nat) (h : list (mop K V)) : list (list (Z * K * V)) := fold_left ut_step h (repeat [] nb).
  (* size() *)
  Definition ut_size (t : list (list (Z * K * V))) : nat := length (concat t).
End Table.
