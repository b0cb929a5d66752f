(* The index arithmetic of Sn/SnObj.hpp and Sn/SnOverSmObj.hpp with 32-bit int: every arithmetic
   result is checked, and signed overflow is UB.  Same control flow as Model_Sn. *)
From Coq Require Import ZArith List Bool.
From Verif Require Import Model_Base Model_Perm Model_Sn Model_Part.
Import ListNotations.
Open Scope Z_scope.

Definition i32 (x : Z) : outcome Z :=
  if (-2147483648 <=? x) && (x <=? 2147483647) then Ret x else UB.

(* include/abandoned/Factorial.hpp 24-34: table of int, fact[i]=fact[i-1]*i *)
Definition zfact32 (n : Z) : outcome Z := zfor 1 (n + 1) (fun i f => i32 (f * i)) 1.

(* SnObj.hpp 61-64 *)
Definition sn_size32 (n : Z) : outcome Z := zfact32 n.

(* SnObj.hpp 89-93; SnOverSmObj.hpp 61-65 *)
Definition sn_digits32 (n m e : Z) : outcome (list Z) :=
  r <- zford n (m + 1)
         (fun i st =>
            let '(s, e) := st in
            f <- zfact32 (i - 1) ;;
            q <- cdiv e f ;;
            d <- i32 (i - q) ;;
            s' <- wr s (i - 1) d ;;
            e' <- cmod e f ;;
            Ret (s', e'))
         (repeat 0 (Z.to_nat n), e) ;;
  Ret (fst r).

(* SnObj.hpp 86-103 *)
Definition sn_element32 (n e : Z) : outcome perm :=
  p <- p_identity n ;;
  s <- sn_digits32 n 0 e ;;
  zfor 2 (n + 1) (fun i p => sn_insert s i p) p.

(* SnObj.hpp 105-119 *)
Fixpoint sn_index_rec32 (k : nat) (sigma : perm) : outcome Z :=
  match k with
  | O => Ret 0
  | S k' =>
      let n := Z.of_nat k + 1 in
      _ <- assert_ (zlen sigma =? n) ;;
      tau <- alloc (n - 1) ;;
      r <- zforb 0 n
             (fun i tau =>
                v <- rd sigma i ;;
                if v =? n then Ret (inr (i, tau))
                else t <- wr tau i (Some v) ;; Ret (inl t)) tau ;;
      let '(i, a, tau) :=
        match r with
        | inr (i, tau) => (i, n - i - 1, tau)
        | inl tau => (n, 0, tau)
        end in
      tau <- zfor (i + 1) n (fun i tau => v <- rd sigma i ;; wr tau (i - 1) (Some v)) tau ;;
      tau <- freeze tau ;;
      x <- sn_index_rec32 k' tau ;;
      f <- zfact32 (n - 1) ;;
      y <- i32 (a * f) ;;
      i32 (x + y)
  end.

Definition sn_index32 (n : Z) (sigma : perm) : outcome Z := sn_index_rec32 (Z.to_nat (n - 1)) sigma.

(* SnOverSmObj.hpp 57-75 *)
Definition snsm_element32 (n m e : Z) : outcome perm :=
  p <- p_identity n ;;
  f <- zfact32 m ;;
  e <- i32 (e * f) ;;
  s <- sn_digits32 n m e ;;
  zfor (m + 1) (n + 1) (fun i p => sn_insert s i p) p.

(* combinatorial/IntegerPartition.hpp 83-85 *)
Fixpoint ip_fact32n (k : nat) : outcome Z :=
  match k with O => Ret 1 | S k' => f <- ip_fact32n k' ;; i32 (Z.of_nat k * f) end.
Definition ip_factorial32 (x : Z) : outcome Z := if x <? 0 then UB else ip_fact32n (Z.to_nat x).
(* combinatorial/IntegerPartition.hpp 123-135; the counters and the divisors are at most n and are not checked *)
Definition ip_hooklength32 (p : part) : outcome Z :=
  let k := zlen p in
  res <- ip_factorial32 (ip_getn p) ;;
  zfor 1 (k + 1)
    (fun r res =>
       pr <- rd p (r - 1) ;;
       zfor 1 (pr + 1)
         (fun c res =>
            let right := pr - c in
            below <- zfor (r + 1) (k + 1)
                       (fun i below => v <- rd p (i - 1) ;; Ret (below + (if v >=? c then 1 else 0))) 0 ;;
            cdiv res (right + below + 1)) res) res.
