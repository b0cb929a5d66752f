(* Execution vocabulary shared by all model files.  No proofs here.

   C++ behaviour is described by [outcome]:
     Ret v  - the call returns v
     Throw  - a C++ exception leaves the call (std::vector::at, SNOB2_ASSRT)
     Abort  - the process ends (assert, SNOB2_ASSERT which calls exit)
     UB     - undefined behaviour (out-of-bounds raw access, uninitialised read, dangling pointer) *)
From Coq Require Import ZArith List Bool.
Import ListNotations.
Open Scope Z_scope.

Inductive outcome (A : Type) : Type :=
| Ret (a : A)
| Throw
| Abort
| UB.
Arguments Ret {A} a.
Arguments Throw {A}.
Arguments Abort {A}.
Arguments UB {A}.

Definition bind {A B : Type} (m : outcome A) (f : A -> outcome B) : outcome B :=
  match m with
  | Ret a => f a
  | Throw => Throw
  | Abort => Abort
  | UB => UB
  end.

Notation "x <- m ;; k" := (bind m (fun x => k))
  (at level 61, m at next level, right associativity).

(* assert(b) and SNOB2_ASSERT (include/Snob2_base.hpp 19: prints, then assert/exit) *)
Definition assert_ (b : bool) : outcome unit := if b then Ret tt else Abort.
(* SNOB2_ASSRT (include/Snob2_base.hpp 20-21): throws std::runtime_error *)
Definition assrt_ (b : bool) : outcome unit := if b then Ret tt else Throw.

Definition zlen {A : Type} (l : list A) : Z := Z.of_nat (length l).

(* raw array read  a[i] : UB outside the array *)
Definition rd {A : Type} (l : list A) (i : Z) : outcome A :=
  if 0 <=? i then
    match nth_error l (Z.to_nat i) with Some a => Ret a | None => UB end
  else UB.

(* raw array write  a[i]=x : UB outside the array *)
Definition wr {A : Type} (l : list A) (i : Z) (x : A) : outcome (list A) :=
  if (0 <=? i) && (i <? zlen l) then
    Ret (firstn (Z.to_nat i) l ++ x :: skipn (S (Z.to_nat i)) l)
  else UB.

(* std::vector::at : throws outside the vector (the int argument converts to a huge size_t when
   negative, so negative indices throw as well) *)
Definition vat {A : Type} (l : list A) (i : Z) : outcome A :=
  if 0 <=? i then
    match nth_error l (Z.to_nat i) with Some a => Ret a | None => Throw end
  else Throw.

Definition vat_set {A : Type} (l : list A) (i : Z) (x : A) : outcome (list A) :=
  if (0 <=? i) && (i <? zlen l) then
    Ret (firstn (Z.to_nat i) l ++ x :: skipn (S (Z.to_nat i)) l)
  else Throw.

(* new int[n]: a buffer of uninitialised cells; a negative length throws std::bad_array_new_length *)
Definition alloc (n : Z) : outcome (list (option Z)) :=
  if n <? 0 then Throw else Ret (repeat None (Z.to_nat n)).

(* The buffer is handed out as an array of ints: reading a cell that was never written is UB. *)
Fixpoint freeze {A : Type} (b : list (option A)) : outcome (list A) :=
  match b with
  | [] => Ret []
  | None :: _ => UB
  | Some x :: b' => t <- freeze b' ;; Ret (x :: t)
  end.

(* the integers lo, lo+1, ..., hi-1 *)
Definition zrange (lo hi : Z) : list Z :=
  map (fun k => lo + Z.of_nat k) (seq 0 (Z.to_nat (hi - lo))).

Fixpoint foldM {S I : Type} (body : I -> S -> outcome S) (l : list I) (s : S) : outcome S :=
  match l with
  | [] => Ret s
  | i :: l' => s' <- body i s ;; foldM body l' s'
  end.

(* for(int i=lo; i<hi; i++) body *)
Definition zfor {S : Type} (lo hi : Z) (body : Z -> S -> outcome S) (s : S) : outcome S :=
  foldM body (zrange lo hi) s.

(* for(int i=hi; i>=lo; i--) body *)
Definition zford {S : Type} (hi lo : Z) (body : Z -> S -> outcome S) (s : S) : outcome S :=
  foldM body (rev (zrange lo (hi + 1))) s.

(* loops with an early exit: the body answers [inl] to go on, [inr] to leave the loop *)
Fixpoint foldB {S I R : Type} (body : I -> S -> outcome (S + R)) (l : list I) (s : S)
  : outcome (S + R) :=
  match l with
  | [] => Ret (inl s)
  | i :: l' =>
      q <- body i s ;;
      match q with
      | inl s' => foldB body l' s'
      | inr r => Ret (inr r)
      end
  end.

Definition zforb {S R : Type} (lo hi : Z) (body : Z -> S -> outcome (S + R)) (s : S)
  : outcome (S + R) := foldB body (zrange lo hi) s.

(* C++11 integer division and remainder truncate towards zero; dividing by 0 is UB. *)
Definition cdiv (a b : Z) : outcome Z := if b =? 0 then UB else Ret (Z.quot a b).
Definition cmod (a b : Z) : outcome Z := if b =? 0 then UB else Ret (Z.rem a b).
