(* Permutations acting on some of the vectors of a batch. *)
From Coq Require Import ZArith List Bool.
From Verif Require Import Spec_Perm.
Import ListNotations.
Open Scope Z_scope.

(* act on the vectors o, ..., o+s-1 of a batch: by a permutation, by the cycle a -> a+1 -> ... -> b -> a, by its inverse *)
Inductive bop := BPerm (p : list Z) (o s : Z) | BCyc (a b o s : Z) | BInv (a b o s : Z).

Definition bop_ok (n N : Z) (x : bop) : Prop :=
  match x with
  | BPerm p o s => is_perm n p /\ 0 <= o /\ 0 <= s /\ o + s <= N
  | BCyc a b o s | BInv a b o s => 1 <= a /\ a <= b /\ b <= n /\ 0 <= o /\ 0 <= s /\ o + s <= N
  end.

(* vector y is one of those moved *)
Definition bop_hits (y : Z) (x : bop) : bool :=
  match x with BPerm _ o s | BCyc _ _ o s | BInv _ _ o s => (o <=? y) && (y <? o + s) end.

(* where the permutation takes i *)
Definition bop_sends (x : bop) (i : Z) : Z :=
  match x with
  | BPerm p _ _ => img p i
  | BCyc a b _ _ => if (a <=? i) && (i <? b) then i + 1 else if i =? b then a else i
  | BInv a b _ _ => if (a <? i) && (i <=? b) then i - 1 else if i =? a then b else i
  end.

(* where the permutations that moved vector y take i, one after the other *)
Definition turns (y : Z) (h : list bop) (i : Z) : Z := fold_left (fun i x => if bop_hits y x then bop_sends x i else i) h i.
