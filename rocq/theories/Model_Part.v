(* Model of combinatorial/IntegerPartition.hpp.  A partition object is its array p[0..k-1]. *)
From Coq Require Import ZArith List Bool.
From Verif Require Import Model_Base Model_Sn.
Import ListNotations.
Open Scope Z_scope.

Notation part := (list Z) (only parsing).

(* IntegerPartition.hpp 28-30 *)
Definition ip_empty : part := [].
(* 36-39: fill_identity *)
Definition ip_row (n : Z) : part := [n].
(* 41-44: fill_zero; a negative length throws *)
Definition ip_zero (k : Z) : outcome part := if k <? 0 then Throw else Ret (repeat 0 (Z.to_nat k)).
(* 46-54: from a list *)
Definition ip_of_list (l : list Z) : part := l.

(* 90-92 *)
Definition ip_height (p : part) : Z := zlen p.
(* 94-98 *)
Definition ip_getn (p : part) : Z := fold_left Z.add p 0.
(* 100-114: p[r], p(r) *)
Definition ip_get (p : part) (r : Z) : outcome Z := rd p r.
(* 116-118 *)
Definition ip_set (p : part) (r x : Z) : outcome part := wr p r x.

(* 83-85: factorial by recursion; a negative argument never reaches 0 (stack exhaustion: UB) *)
Definition ip_factorial (x : Z) : outcome Z := if x <? 0 then UB else Ret (zfact x).

(* 123-135: hook length formula with successive truncating integer divisions *)
Definition ip_hooklength (p : part) : outcome Z :=
  let k := zlen p in
  res <- ip_factorial (ip_getn p) ;;
  zfor 1 (k + 1)
    (fun r res =>
       pr <- rd p (r - 1) ;;
       zfor 1 (pr + 1)
         (fun c res =>
            let right := pr - c in
            below <- zfor (r + 1) (k + 1)
                       (fun i below => v <- rd p (i - 1) ;; Ret (below + (if v >=? c then 1 else 0))) 0 ;;
            cdiv res (right + below + 1)) res) res.

(* 137-142 *)
Definition ip_extendable (p : part) (i : Z) : outcome bool :=
  if i =? zlen p then Ret true
  else if i =? 0 then Ret true
  else a <- rd p (i - 1) ;; b <- rd p i ;; Ret (a >? b).

(* 144-148 *)
Definition ip_shortenable (p : part) (i : Z) : outcome bool :=
  if i =? zlen p - 1 then Ret true
  else b <- rd p (i + 1) ;; a <- rd p i ;; Ret (b <? a).

(* 150-160 *)
Definition ip_content_of_difference (p mu : part) : outcome Z :=
  _ <- assrt_ (ip_getn p =? ip_getn mu + 1) ;;
  _ <- assrt_ (zlen p >=? zlen mu) ;;
  r <- zforb 0 (zlen mu)
         (fun i (_ : unit) =>
            a <- rd mu i ;; b <- rd p i ;;
            if a =? b - 1 then Ret (inr i) else Ret (inl tt)) tt ;;
  let rowix := match r with inr i => i | inl _ => zlen mu end in
  v <- rd p rowix ;;
  Ret (v - 1 - rowix).

(* 162-168 *)
Definition ip_add (p : part) (r m : Z) : outcome part :=
  if r <? zlen p then v <- rd p r ;; wr p r (v + m)
  else Ret (p ++ [m]).

(* 170-178.  After the subtraction p[k-1] is read; with k=0 both accesses are outside. *)
Definition ip_remove (p : part) (r m : Z) : outcome part :=
  v <- rd p r ;;
  p <- wr p r (v - m) ;;
  l <- rd p (zlen p - 1) ;;
  if l =? 0 then Ret (firstn (Z.to_nat (zlen p - 1)) p) else Ret p.

(* 184-207: the arguments of the successive calls of fun, in order (fun does not touch lambda) *)
Definition ip_foreach_sub (p : part) : outcome (list part) :=
  let k := zlen p in
  _ <- assert_ (k >? 0) ;;
  l <- rd p (k - 1) ;;
  q <- wr p (k - 1) (l - 1) ;;
  let first := if l - 1 =? 0 then firstn (Z.to_nat (k - 1)) q else q in
  zford (k - 2) 0
    (fun i acc =>
       b <- rd p (i + 1) ;; a <- rd p i ;;
       if b <? a then q <- wr p i (a - 1) ;; Ret (acc ++ [q]) else Ret acc) [first].

(* 228-233 *)
Definition ip_parents (p : part) : outcome (list part) := ip_foreach_sub p.

(* 209-214 *)
Fixpoint all_zero (l : list Z) : bool :=
  match l with [] => true | x :: l' => (x =? 0) && all_zero l' end.
Fixpoint ip_eq (p x : part) : bool :=
  match p, x with
  | a :: p', b :: x' => (a =? b) && ip_eq p' x'
  | [], x => all_zero x
  | p, [] => all_zero p
  end.

(* 218-222: the loop of operator< *)
Fixpoint ip_lt_loop (p y : part) : bool :=
  match p, y with
  | a :: p', b :: y' => if a >? b then true else if a <? b then false else ip_lt_loop p' y'
  | _, _ => false
  end.
(* 216-223: operator< ; the size check is SNOB2_ASSERT *)
Definition ip_lt (p y : part) : outcome bool :=
  _ <- assert_ (ip_getn p =? ip_getn y) ;;
  Ret (ip_lt_loop p y).

(* 259-269: std::hash (64-bit size_t; hash<int> is the value converted to size_t) *)
Definition ip_hash (p : part) : Z :=
  fold_left (fun r x => Z.lxor ((2 * r) mod 2 ^ 64) (x mod 2 ^ 64)) p 1.
