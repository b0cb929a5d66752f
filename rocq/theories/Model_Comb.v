(* Model of the list-producing code of combinatorial/CombinatorialBankLevel.hpp.  Here a level is
   computed from scratch; the cached version with its object identities is in Model_CombBank. *)
From Coq Require Import ZArith List Bool.
From Verif Require Import Model_Base Model_Part.
Import ListNotations.
Open Scope Z_scope.

(* CombinatorialBankLevel.hpp 99-112: the new partitions contributed by one partition p *)
Definition cb_children (p : part) : outcome (list part) :=
  let k := ip_height p in
  b <- (if k =? 1 then Ret true
        else x <- rd p (k - 2) ;; y <- rd p (k - 1) ;; Ret (x >? y)) ;;
  first <- (if b then q <- ip_add p (k - 1) 1 ;; Ret [q] else Ret []) ;;
  q <- ip_add p k 1 ;;
  Ret (first ++ [q]).

(* CombinatorialBankLevel.hpp 93-113: make_partitions of the level n = k+1 *)
Fixpoint cb_make_partitions (k : nat) : outcome (list part) :=
  match k with
  | O => Ret [ip_row 1]
  | S k' =>
      sub <- cb_make_partitions k' ;;
      foldM (fun p acc => c <- cb_children p ;; Ret (acc ++ c)) sub []
  end.

(* CombinatorialBank.hpp 31-34 on a fresh bank.  The comparison n<=levels.size() at 50 is unsigned, so a
   negative n goes to vector::resize, which throws; n=0 reads levels[-1] *)
Definition integer_partitions (n : Z) : outcome (list part) :=
  if n <? 0 then Throw else if n =? 0 then UB else cb_make_partitions (Z.to_nat (n - 1)).

(* CombinatorialBankLevel.hpp 77-86: the parents of lambda, in the order they are pushed *)
Definition cb_parents (p : part) : outcome (list part) :=
  zford (ip_height p - 1) 0
    (fun i acc =>
       b <- ip_shortenable p i ;;
       if b then mu <- ip_remove p i 1 ;; Ret (acc ++ [mu]) else Ret acc) [].
