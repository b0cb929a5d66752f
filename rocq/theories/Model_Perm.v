(* Model of combinatorial/Permutation.hpp, Transposition.hpp, ContiguousCycle.hpp.
   A Permutation object (int n; int* p) is the list of the n cells of p, so n is the list length. *)
From Coq Require Import ZArith List Bool.
From Verif Require Import Model_Base.
Import ListNotations.
Open Scope Z_scope.

Notation perm := (list Z) (only parsing).

(* Permutation.hpp 158-164: getn, size *)
Definition p_size (p : perm) : Z := zlen p.

(* Permutation.hpp 45-49, 108-118: fill_identity constructor, identity, Identity *)
Definition p_identity (n : Z) : outcome perm :=
  b <- alloc n ;;
  b <- zfor 0 n (fun i b => wr b i (Some (i + 1))) b ;;
  freeze b.

(* Permutation.hpp 120-126: static transposition(_n,i,j).  (The loop variable shadows i.) *)
Definition p_transposition (n i j : Z) : outcome perm :=
  b <- alloc n ;;
  b <- zfor 0 n (fun i b => wr b i (Some (i + 1))) b ;;
  b <- wr b (i - 1) (Some j) ;;
  b <- wr b (j - 1) (Some i) ;;
  freeze b.

(* Permutation.hpp 128-142: static contiguous_cycle(_n,a,b) *)
Definition p_contiguous_cycle (n a b : Z) : outcome perm :=
  q <- alloc n ;;
  if a <? b then
    q <- zfor 1 a (fun i q => wr q (i - 1) (Some i)) q ;;
    q <- zfor (b + 1) (n + 1) (fun i q => wr q (i - 1) (Some i)) q ;;
    q <- zfor a b (fun i q => wr q (i - 1) (Some (i + 1))) q ;;
    q <- wr q (b - 1) (Some a) ;;
    freeze q
  else
    q <- zfor 1 b (fun i q => wr q (i - 1) (Some i)) q ;;
    q <- zfor (a + 1) (n + 1) (fun i q => wr q (i - 1) (Some i)) q ;;
    q <- zfor (b + 1) (a + 1) (fun i q => wr q (i - 1) (Some (i - 1))) q ;;
    q <- wr q (b - 1) (Some a) ;;
    freeze q.

(* Transposition.hpp 18-40: Transposition(i) is (i,i+1), Transposition(i,j) stores i and j. *)
Record transposition := mkTransp { tr_i : Z; tr_j : Z }.
Definition transp1 (i : Z) : transposition := mkTransp i (i + 1).

(* Permutation.hpp 149-153: Permutation(n, Transposition) *)
Definition p_of_transposition (n : Z) (x : transposition) : outcome perm :=
  p <- p_identity n ;;
  p <- wr p (tr_i x - 1) (tr_j x) ;;
  wr p (tr_j x - 1) (tr_i x).

(* ContiguousCycle.hpp: ContiguousCycle(a,b); inv() is ContiguousCycle(b,a) *)
Record ccycle := mkCyc { cy_a : Z; cy_b : Z }.
Definition ccycle_inv (c : ccycle) : ccycle := mkCyc (cy_b c) (cy_a c).

(* Permutation.hpp 57-60: Permutation(vector<int>): copies, no validity check *)
Definition p_of_vector (x : list Z) : outcome perm :=
  b <- alloc (zlen x) ;;
  b <- zfor 0 (zlen x) (fun i b => v <- rd x i ;; wr b i (Some v)) b ;;
  freeze b.

(* Permutation.hpp 166-168: operator()(i), 1-based *)
Definition p_call (p : perm) (i : Z) : outcome Z := rd p (i - 1).

(* Permutation.hpp 178-180: set_value *)
Definition p_set_value (p : perm) (i j : Z) : outcome perm := wr p (i - 1) j.

(* Permutation.hpp 182-186: operator== *)
Definition p_eq (p x : perm) : outcome bool :=
  if negb (zlen p =? zlen x) then Ret false
  else
    r <- zforb 0 (zlen p)
           (fun i (_ : unit) =>
              u <- rd p i ;; v <- rd x i ;;
              if negb (u =? v) then Ret (inr false) else Ret (inl tt)) tt ;;
    match r with inl _ => Ret true | inr b => Ret b end.

(* Permutation.hpp 188-192: operator! *)
Definition p_not (p : perm) : outcome perm :=
  b <- alloc (zlen p) ;;
  b <- zfor 0 (zlen p) (fun i b => v <- rd p i ;; wr b (v - 1) (Some (i + 1))) b ;;
  freeze b.

(* Permutation.hpp 197-201: operator*   result.p[i]=p[x(i+1)-1] *)
Definition p_mul (p x : perm) : outcome perm :=
  b <- alloc (zlen p) ;;
  b <- zfor 0 (zlen p)
         (fun i b => v <- p_call x (i + 1) ;; w <- rd p (v - 1) ;; wr b i (Some w)) b ;;
  freeze b.

(* Permutation.hpp 203-206: operator*=   p[i]=x(p[i]) *)
Definition p_mul_assign (p x : perm) : outcome perm :=
  zfor 0 (zlen p) (fun i p => v <- rd p i ;; w <- p_call x v ;; wr p i w) p.

(* Permutation.hpp 208-213: inverse *)
Definition p_inverse (p : perm) : outcome perm :=
  b <- alloc (zlen p) ;;
  b <- zfor 1 (zlen p + 1) (fun i b => v <- rd p (i - 1) ;; wr b (v - 1) (Some i)) b ;;
  freeze b.

(* Permutation.hpp 215-217: inv *)
Definition p_inv (p : perm) : outcome perm := p_inverse p.

(* Permutation.hpp 219-226: check_valid *)
Definition p_check_valid (p : perm) : outcome bool :=
  r <- zforb 0 (zlen p)
         (fun i (a : list bool) =>
            v <- rd p i ;;
            (* p[i]<1 || p[i]>n || a[p[i]-1], evaluated left to right *)
            if (v <? 1) || (v >? zlen p) then Ret (inr false)
            else
              q <- rd a (v - 1) ;;
              if q then Ret (inr false)
              else a' <- wr a (v - 1) true ;; Ret (inl a'))
         (repeat false (length p)) ;;
  match r with inl _ => Ret true | inr b => Ret b end.

(* Permutation.hpp 51-55: Permutation(initializer_list): copies, then only prints if invalid.
   The boolean records whether "Invalid permutation" was printed. *)
Definition p_of_initializer (x : list Z) : outcome (perm * bool) :=
  p <- p_of_vector x ;;
  ok <- p_check_valid p ;;
  Ret (p, negb ok).
