(* Model of combinatorial/YoungTableau.hpp and of IntegerPartitionObj::make_tableaux.
   A tableau is its vector of rows. *)
From Coq Require Import ZArith List Bool.
From Verif Require Import Model_Base Model_Part Model_Comb.
Import ListNotations.
Open Scope Z_scope.

Notation tab := (list (list Z)) (only parsing).

(* YoungTableau.hpp 29-33: one row 1..n *)
Definition yt_identity (n : Z) : tab := [zrange 1 (n + 1)].

(* 35-42: row-major filling; vector<int> row(lambda[r]) throws for a negative length *)
Definition yt_of_partition (lambda : part) : outcome tab :=
  r <- foldM (fun len st =>
                let '(t, rows) := st in
                if len <? 0 then Throw
                else Ret (t + len, rows ++ [zrange t (t + len)])) lambda (1, []) ;;
  Ret (snd r).

(* 55-59 *)
Definition yt_k (t : tab) : Z := zlen t.

(* 61-65: shape() *)
Definition yt_shape (t : tab) : outcome part :=
  r <- ip_zero (yt_k t) ;;
  zfor 0 (zlen r) (fun i r => row <- rd t i ;; ip_add r i (zlen row)) r.

(* 67-81: at(r,c), operator(), get_value *)
Definition yt_at (t : tab) (r c : Z) : outcome Z := row <- vat t r ;; vat row c.

(* 83-85: set_value: rows.at(r)[c]=x *)
Definition yt_set_value (t : tab) (r c x : Z) : outcome tab :=
  row <- vat t r ;; row' <- wr row c x ;; vat_set t r row'.

(* 87-93: index(m), row-major search, (0,0) when absent *)
Fixpoint row_find (row : list Z) (m j : Z) : option Z :=
  match row with
  | [] => None
  | x :: row' => if x =? m then Some j else row_find row' m (j + 1)
  end.
Fixpoint yt_find (t : tab) (m i : Z) : option (Z * Z) :=
  match t with
  | [] => None
  | row :: t' => match row_find row m 0 with Some j => Some (i, j) | None => yt_find t' m (i + 1) end
  end.
Definition yt_index (t : tab) (m : Z) : Z * Z :=
  match yt_find t m 0 with Some rc => rc | None => (0, 0) end.

(* 100-109 *)
Definition yt_add (t : tab) (r j : Z) : outcome tab :=
  if r <? yt_k t then row <- vat t r ;; vat_set t r (row ++ [j])
  else Ret (t ++ [[j]]).

(* 111-117; pop_back on an empty vector is UB but at(r) has thrown before *)
Definition yt_remove (t : tab) (r : Z) : outcome tab :=
  row <- vat t r ;;
  if zlen row >? 1 then vat_set t r (removelast row)
  else Ret (removelast t).

(* 123-129; 119-121 is the case j=i+1 *)
Definition yt_apply_transp (t : tab) (i j : Z) : outcome (tab * Z) :=
  let '(r1, c1) := yt_index t i in
  let '(r2, c2) := yt_index t j in
  row1 <- vat t r1 ;; row1' <- vat_set row1 c1 j ;; t <- vat_set t r1 row1' ;;
  row2 <- vat t r2 ;; row2' <- vat_set row2 c2 i ;; t <- vat_set t r2 row2' ;;
  Ret (t, (c2 - r2) - (c1 - r1)).

(* IntegerPartitionObj.hpp 57-60: first row in which the parent is shorter *)
Definition tableau_row (mu lambda : part) : outcome Z :=
  let k := ip_height mu in
  r <- zforb 0 k
         (fun j (_ : unit) =>
            a <- rd mu j ;; b <- rd lambda j ;;
            if a <? b then Ret (inr j) else Ret (inl tt)) tt ;;
  Ret (match r with inr j => j | inl _ => k end).

(* IntegerPartitionObj.hpp 51-68 with get_YoungTableaux 43-46 computed from scratch, for a
   partition of n = k+1; the parents are those of CombinatorialBankLevel.hpp 77-86 *)
Fixpoint cb_make_tableaux (k : nat) (lambda : part) : outcome (list tab) :=
  match k with
  | O => Ret [yt_identity 1]
  | S k' =>
      let n := Z.of_nat k + 1 in
      ps <- cb_parents lambda ;;
      foldM (fun mu acc =>
               i <- tableau_row mu lambda ;;
               sub <- cb_make_tableaux k' mu ;;
               foldM (fun a acc => t <- yt_add a i n ;; Ret (acc ++ [t])) sub acc) ps []
  end.

(* CombinatorialBank.hpp 36-39 on a fresh bank; n<=0 as in integer_partitions *)
Definition young_tableaux (lambda : part) : outcome (list tab) :=
  let n := ip_getn lambda in
  if n <? 0 then Throw else if n =? 0 then UB else cb_make_tableaux (Z.to_nat (n - 1)) lambda.
