(* Vocabulary for C98: programs that make and destroy sessions in an orderly way. *)
From Coq Require Import List Arith.
From Verif Require Import Model_Session.
Import ListNotations.

(* programs that construct sessions, destroy each at most once, and use the library; live are the numbers of the
   sessions that are alive and next is the number of sessions made so far *)
Inductive tidy : list nat -> nat -> list sop -> Prop :=
| tidy_nil : forall live next, tidy live next []
| tidy_new : forall live next os, tidy (next :: live) (S next) os -> tidy live next (New KSession :: os)
| tidy_del : forall live next i os, In i live -> tidy (remove Nat.eq_dec i live) next os -> tidy live next (Destroy i :: os)
| tidy_use : forall live next b os, tidy live next os -> tidy live next (Use b :: os).

(* blocks of memory in use, and objects not yet destroyed *)
Definition alive_count (l : list bool) : nat := length (filter (fun x => x) l).
Definition live_objs (w : world) : nat := length (filter (fun x => match x with Some _ => true | None => false end) (w_objs w)).

