(* Object lifetimes of Permutation and IntegerPartition.  No proofs here.

   The other model files treat a permutation or a partition as the list of its entries.  This file
   models what the two classes do with memory: each object is a size and an int* to a block
   obtained with new[], several objects may be live at once, and a reference argument may be the
   object itself.  [SnElement] derives from Permutation and adds no data (Sn/SnElement.hpp 20-50). *)
From Coq Require Import ZArith List Bool.
From Verif Require Import Model_Base Spec_Mem.
Import ListNotations.
Open Scope Z_scope.

(* Permutation.hpp 28-29 (n,p) and IntegerPartition.hpp 22-23 (k,p); None is the null pointer *)
Record obj := Obj { osz : Z; optr : option Z }.

(* The heap is the list of all blocks ever obtained with new[]; a block is None once freed, and a
   cell of a block is None until it is written.  Blocks are named by their position and never
   reused, so a dangling pointer is always recognised as one.  [vars] are the live objects, by the
   name of the variable holding them. *)
Record mem := Mem {
  heap : list (option (list (option Z)));
  vars : Z -> option obj
}.

Definition mem0 : mem := Mem [] (fun _ => None).

Definition fupd {A : Type} (f : Z -> A) (a : Z) (x : A) : Z -> A :=
  fun b => if b =? a then x else f b.

(* p=new int[k] *)
Definition m_new (k : Z) (s : mem) : outcome (Z * mem) :=
  c <- alloc k ;;
  Ret (zlen (heap s), Mem (heap s ++ [Some c]) (vars s)).

(* the live block p points to: UB for a null or dangling pointer *)
Definition m_blk (p : option Z) (s : mem) : outcome (Z * list (option Z)) :=
  match p with
  | None => UB
  | Some b =>
      q <- rd (heap s) b ;;
      match q with Some c => Ret (b, c) | None => UB end
  end.

(* delete[] p: nothing for the null pointer, UB unless p is a live block *)
Definition m_del (p : option Z) (s : mem) : outcome mem :=
  match p with
  | None => Ret s
  | Some _ =>
      q <- m_blk p s ;;
      h <- wr (heap s) (fst q) None ;;
      Ret (Mem h (vars s))
  end.

(* the value of p[i] *)
Definition m_get (p : option Z) (i : Z) (s : mem) : outcome Z :=
  q <- m_blk p s ;;
  x <- rd (snd q) i ;;
  match x with Some a => Ret a | None => UB end.

(* p[i]=x *)
Definition m_put (p : option Z) (i x : Z) (s : mem) : outcome mem :=
  q <- m_blk p s ;;
  c <- wr (snd q) i (Some x) ;;
  h <- wr (heap s) (fst q) (Some c) ;;
  Ret (Mem h (vars s)).

(* access to a live object; touching one outside its lifetime is UB *)
Definition getv (v : Z) (s : mem) : outcome obj :=
  match vars s v with Some o => Ret o | None => UB end.
Definition setv (v : Z) (o : obj) (s : mem) : mem :=
  Mem (heap s) (fupd (vars s) v (Some o)).
(* storage for a new object must not hold a live one *)
Definition newv (v : Z) (o : obj) (s : mem) : outcome mem :=
  match vars s v with None => Ret (setv v o s) | Some _ => UB end.
Definition delv (v : Z) (s : mem) : mem :=
  Mem (heap s) (fupd (vars s) v None).

(* ---- constructors ------------------------------------------------------------------------- *)

(* IntegerPartition.hpp 28-30: IntegerPartition() *)
Definition ip_ctor_default (v : Z) (s : mem) : outcome mem := newv v (Obj 0 None) s.

(* Permutation.hpp 35-43, IntegerPartition.hpp 32-34: the raw constructors *)
Definition ctor_raw (v n : Z) (s : mem) : outcome mem :=
  q <- m_new n s ;;
  let '(b, s1) := q in newv v (Obj n (Some b)) s1.

(* int i=0; for(auto v:list) p[i++]=v;  and  for(i<n) p[i]=x[i]  *)
Definition fill_from (b : Z) (l : list Z) (s : mem) : outcome mem :=
  zfor 0 (zlen l) (fun i s => x <- rd l i ;; m_put (Some b) i x s) s.

(* Permutation.hpp 51-60, IntegerPartition.hpp 46-54: from an initializer_list or a vector.
   check_valid (Permutation.hpp 54) only prints a message and is left out here. *)
Definition ctor_list (v : Z) (l : list Z) (s : mem) : outcome mem :=
  q <- m_new (zlen l) s ;;
  let '(b, s1) := q in
  s2 <- fill_from b l s1 ;;
  newv v (Obj (zlen l) (Some b)) s2.

(* Permutation.hpp 45-49: the identity;  108-118 (identity, Identity) fill the same values *)
Definition pm_ctor_identity (v n : Z) (s : mem) : outcome mem :=
  q <- m_new n s ;;
  let '(b, s1) := q in
  s2 <- zfor 0 n (fun i s => m_put (Some b) i (i + 1) s) s1 ;;
  newv v (Obj n (Some b)) s2.

(* IntegerPartition.hpp 36-39: the one-row partition *)
Definition ip_ctor_identity (v n : Z) (s : mem) : outcome mem :=
  q <- m_new 1 s ;;
  let '(b, s1) := q in
  s2 <- m_put (Some b) 0 n s1 ;;
  newv v (Obj 1 (Some b)) s2.

(* IntegerPartition.hpp 41-44: k zeros *)
Definition ip_ctor_zero (v k : Z) (s : mem) : outcome mem :=
  q <- m_new k s ;;
  let '(b, s1) := q in
  s2 <- zfor 0 k (fun i s => m_put (Some b) i 0 s) s1 ;;
  newv v (Obj k (Some b)) s2.

(* ---- copying ------------------------------------------------------------------------------ *)

(* Permutation.hpp 83-86, IntegerPartition.hpp 59-62: the copy constructor's work; the object under
   construction is returned, x.p is looked up again in every round *)
Definition copy_of (x : Z) (s : mem) : outcome (obj * mem) :=
  ox <- getv x s ;;
  q <- m_new (osz ox) s ;;
  let '(b, s1) := q in
  s2 <- zfor 0 (osz ox) (fun i s =>
          ox <- getv x s ;;
          a <- m_get (optr ox) i s ;;
          m_put (Some b) i a s) s1 ;;
  Ret (Obj (osz ox) (Some b), s2).

Definition ctor_copy (v x : Z) (s : mem) : outcome mem :=
  q <- copy_of x s ;;
  let '(o, s1) := q in newv v o s1.

(* Permutation.hpp 88-90, IntegerPartition.hpp 70-71: the move constructor; x keeps its size *)
Definition ctor_move (v x : Z) (s : mem) : outcome mem :=
  ox <- getv x s ;;
  let s1 := setv x (Obj (osz ox) None) s in
  newv v ox s1.

(* the body shared by the two copy assignments, with [this] and [x] looked up afresh after every
   update since they may be the same object *)
Definition assign_body (this x : Z) (s : mem) : outcome mem :=
  ox <- getv x s ;;
  ot <- getv this s ;;
  let s1 := setv this (Obj (osz ox) (optr ot)) s in         (* n=x.n *)
  s2 <- m_del (optr ot) s1 ;;                               (* delete[] p *)
  q <- m_new (osz ox) s2 ;;
  let '(b, s3) := q in
  let s4 := setv this (Obj (osz ox) (Some b)) s3 in         (* p=new int[n] *)
  zfor 0 (osz ox) (fun i s =>
    ox <- getv x s ;;
    ot <- getv this s ;;
    a <- m_get (optr ox) i s ;;
    m_put (optr ot) i a s) s4.                              (* p[i]=x.p[i] *)

(* IntegerPartition.hpp 64-68: operator=(const IntegerPartition&) returns a reference; the test
   if(p) before delete[] changes nothing *)
Definition ip_assign (this x : Z) (s : mem) : outcome mem := assign_body this x s.

(* ~Permutation, Permutation.hpp 103; ~IntegerPartition, IntegerPartition.hpp 78 *)
Definition dtor (v : Z) (s : mem) : outcome mem :=
  o <- getv v s ;;
  s1 <- m_del (optr o) s ;;
  Ret (delv v s1).

(* Permutation.hpp 92-96: operator=(const Permutation&) returns a Permutation by value, so a copy of
   *this is constructed and destroyed again *)
Definition pm_assign (this x : Z) (s : mem) : outcome mem :=
  s1 <- assign_body this x s ;;
  q <- copy_of this s1 ;;
  let '(o, s2) := q in m_del (optr o) s2.

(* Permutation.hpp 98-101, IntegerPartition.hpp 73-76: move assignment *)
Definition assign_move (this x : Z) (s : mem) : outcome mem :=
  if this =? x then (_ <- getv this s ;; Ret s) else
  ox <- getv x s ;;
  ot <- getv this s ;;
  let s1 := setv this (Obj (osz ox) (optr ot)) s in
  s2 <- m_del (optr ot) s1 ;;
  let s3 := setv this ox s2 in
  Ret (setv x (Obj (osz ox) None) s3).

(* ---- access and in-place changes ---------------------------------------------------------- *)

(* Permutation.hpp 158-164 getn, size; IntegerPartition.hpp 90-92 height *)
Definition o_size (v : Z) (s : mem) : outcome Z := o <- getv v s ;; Ret (osz o).

(* Permutation.hpp 170-172, IntegerPartition.hpp 104-114: x[i] read *)
Definition o_at (v i : Z) (s : mem) : outcome Z := o <- getv v s ;; m_get (optr o) i s.

(* Permutation.hpp 174-176, IntegerPartition.hpp 100-102, 116-118: x[i]=a, set(i,a).
   Permutation::set_value(i,a) (178-180) is this with i-1. *)
Definition o_set (v i a : Z) (s : mem) : outcome mem := o <- getv v s ;; m_put (optr o) i a s.

(* IntegerPartition.hpp 162-168: add(r,m) *)
Definition ip_add_mem (v r m : Z) (s : mem) : outcome mem :=
  o <- getv v s ;;
  if r <? osz o then (a <- m_get (optr o) r s ;; m_put (optr o) r (a + m) s) else
  q <- m_new (osz o + 1) s ;;
  let '(b, s1) := q in
  s2 <- zfor 0 (osz o) (fun i s => a <- m_get (optr o) i s ;; m_put (Some b) i a s) s1 ;;
  s3 <- m_put (Some b) (osz o) m s2 ;;
  s4 <- m_del (optr o) s3 ;;
  Ret (setv v (Obj (osz o + 1) (Some b)) s4).

(* IntegerPartition.hpp 170-178: remove(r,m) *)
Definition ip_remove_mem (v r m : Z) (s : mem) : outcome mem :=
  o <- getv v s ;;
  a <- m_get (optr o) r s ;;
  s1 <- m_put (optr o) r (a - m) s ;;
  z <- m_get (optr o) (osz o - 1) s1 ;;
  if z =? 0 then
    q <- m_new (osz o - 1) s1 ;;
    let '(b, s2) := q in
    s3 <- zfor 0 (osz o - 1) (fun i s => a <- m_get (optr o) i s ;; m_put (Some b) i a s) s2 ;;
    s4 <- m_del (optr o) s3 ;;
    Ret (setv v (Obj (osz o - 1) (Some b)) s4)
  else Ret s1.

(* Permutation.hpp 203-206: operator*=  p[i]=x(p[i]), where x may be the object itself *)
Definition pm_timeseq (this x : Z) (s : mem) : outcome mem :=
  ot <- getv this s ;;
  _ <- getv x s ;;                                          (* the reference x is bound *)
  zfor 0 (osz ot) (fun i s =>
    ox <- getv x s ;;
    ot <- getv this s ;;
    a <- m_get (optr ot) i s ;;
    c <- m_get (optr ox) (a - 1) s ;;
    m_put (optr ot) i c s) s.

(* ---- programs ----------------------------------------------------------------------------- *)

(* one statement of a client program ([op] is in Spec_Mem) *)
Definition exec (o : op) (s : mem) : outcome mem :=
  match o with
  | NewDefault v => ip_ctor_default v s
  | NewRaw v n => ctor_raw v n s
  | NewList v l => ctor_list v l s
  | NewIdentity v n => pm_ctor_identity v n s
  | NewOneRow v n => ip_ctor_identity v n s
  | NewZero v k => ip_ctor_zero v k s
  | Copy v x => ctor_copy v x s
  | Move v x => ctor_move v x s
  | PAssign v x => pm_assign v x s
  | IAssign v x => ip_assign v x s
  | MoveAssign v x => assign_move v x s
  | SetAt v i a => o_set v i a s
  | Add v r m => ip_add_mem v r m s
  | Remove v r m => ip_remove_mem v r m s
  | TimesEq v x => pm_timeseq v x s
  | Destroy v => dtor v s
  end.

Definition exec_all (h : list op) (s : mem) : outcome mem := foldM exec h s.
