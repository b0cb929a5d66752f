(* Model of Sn/SnObj.hpp and Sn/SnOverSmObj.hpp: enumeration of group elements. *)
From Coq Require Import ZArith List Bool.
From Verif Require Import Model_Base Model_Perm.
Import ListNotations.
Open Scope Z_scope.

(* cnine::factorial, used throughout; cnine is not in the repository, the in-tree predecessor is
   include/abandoned/Factorial.hpp 24-34 (fact[i]=fact[i-1]*i, fact[0]=1).  Unbounded integers. *)
Fixpoint zfactn (k : nat) : Z :=
  match k with
  | O => 1
  | S k' => zfactn k' * Z.of_nat k
  end.
Definition zfact (n : Z) : Z := zfactn (Z.to_nat n).

(* SnObj.hpp 61-64, 78-80: order, size *)
Definition sn_size (n : Z) : Z := zfact n.

(* SnObj.hpp 89-93 (and SnOverSmObj.hpp 61-65 with lower limit m): factorial digits.
   State: the vector s and the running e. *)
Definition sn_digits (n m e : Z) : outcome (list Z) :=
  r <- zford n (m + 1)
         (fun i st =>
            let '(s, e) := st in
            q <- cdiv e (zfact (i - 1)) ;;
            s' <- wr s (i - 1) (i - q) ;;
            e' <- cmod e (zfact (i - 1)) ;;
            Ret (s', e'))
         (repeat 0 (Z.to_nat n), e) ;;
  Ret (fst r).

(* SnObj.hpp 96-99: shift p[t-1..i-2] right by one and put i at place t *)
Definition sn_insert (s : list Z) (i : Z) (p : perm) : outcome perm :=
  t <- rd s (i - 1) ;;
  p <- zford i (t + 1) (fun k p => v <- rd p (k - 2) ;; wr p (k - 1) v) p ;;
  wr p (t - 1) i.

(* SnObj.hpp 86-103: element(e) *)
Definition sn_element (n e : Z) : outcome perm :=
  p <- p_identity n ;;
  s <- sn_digits n 0 e ;;
  zfor 2 (n + 1) (fun i p => sn_insert s i p) p.

(* SnObj.hpp 105-119: index(sigma) for the group object with n = k+1.  The recursion follows the
   Snminus1 pointer, which SnBank.hpp 39-42 sets to the object of n-1 for every n>1. *)
Fixpoint sn_index_rec (k : nat) (sigma : perm) : outcome Z :=
  match k with
  | O => Ret 0                                    (* n==1 *)
  | S k' =>
      let n := Z.of_nat k + 1 in
      _ <- assert_ (zlen sigma =? n) ;;
      tau <- alloc (n - 1) ;;
      (* first loop: copy until n is found; leaves with the position *)
      r <- zforb 0 n
             (fun i tau =>
                v <- rd sigma i ;;
                if v =? n then Ret (inr (i, tau))
                else t <- wr tau i (Some v) ;; Ret (inl t)) tau ;;
      let '(i, a, tau) :=
        match r with
        | inr (i, tau) => (i, n - i - 1, tau)
        | inl tau => (n, 0, tau)
        end in
      (* second loop *)
      tau <- zfor (i + 1) n (fun i tau => v <- rd sigma i ;; wr tau (i - 1) (Some v)) tau ;;
      tau <- freeze tau ;;
      x <- sn_index_rec k' tau ;;
      Ret (x + a * zfact (n - 1))
  end.

Definition sn_index (n : Z) (sigma : perm) : outcome Z := sn_index_rec (Z.to_nat (n - 1)) sigma.

(* SnOverSmObj.hpp 41-43 *)
Definition snsm_size (n m : Z) : outcome Z := cdiv (zfact n) (zfact m).

(* SnOverSmObj.hpp 57-75 *)
Definition snsm_element (n m e : Z) : outcome perm :=
  p <- p_identity n ;;
  s <- sn_digits n m (e * zfact m) ;;
  zfor (m + 1) (n + 1) (fun i p => sn_insert s i p) p.

(* SnOverSmObj.hpp 77-94.  One round of the outer loop for the value _n. *)
Definition snsm_round (nn : Z) (st : Z * list Z) : outcome (Z * list Z) :=
  let '(t, s) := st in
  r <- zforb 0 nn
         (fun i (_ : unit) =>
            v <- rd s i ;;
            if v =? nn then Ret (inr (i, t + (nn - i - 1) * zfact (nn - 1))) else Ret (inl tt)) tt ;;
  let '(i, t) := match r with inr (i, t') => (i, t') | inl _ => (nn, t) end in
  s <- zfor (i + 1) nn (fun i s => v <- rd s i ;; wr s (i - 1) v) s ;;
  Ret (t, s).

Definition snsm_index (n m : Z) (sigma : perm) : outcome Z :=
  _ <- assert_ (zlen sigma =? n) ;;
  r <- zford n (m + 1) snsm_round (0, sigma) ;;
  cdiv (fst r) (zfact m).
