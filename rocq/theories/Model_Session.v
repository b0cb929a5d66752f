(* The global objects of the library: Snob2_session, CombinatorialClasses and SnClasses set up, and partly take down,
   the six global banks.  Simplified: the contents of the banks (modelled elsewhere), the order of static
   destructors, and the printed messages.  A bank or a cnine session is a block of the heap, alive until it is deleted *)
From Coq Require Import List Bool Arith.
From Verif Require Import Model_Base.
Import ListNotations.

Inductive kind := KSession | KCombi | KSn.
Inductive bank := BCombi | BSn | BRep | BFft | BChar | BCg.
Scheme Equality for bank.

Record world := mkWorld {
  w_ptr : bank -> option nat;                  (* _combibank, _snbank, ...: null or the number of a block *)
  w_heap : list bool;                          (* which blocks are alive *)
  w_objs : list (option (kind * option nat))   (* the objects constructed, in order; None: destroyed; the pointer cnine_session *)
}.

(* include/Snob2_base.cpp 20-35: all six pointers are null *)
Definition w_init : world := mkWorld (fun _ => None) [] [].

(* new *)
Definition alloc (w : world) : nat * world := (length (w_heap w), mkWorld (w_ptr w) (w_heap w ++ [true]) (w_objs w)).
Definition set_ptr (b : bank) (p : nat) (w : world) : world :=
  mkWorld (fun b' => if bank_beq b' b then Some p else w_ptr w b') (w_heap w) (w_objs w).
Definition new_bank (b : bank) (w : world) : world := let (p, w) := alloc w in set_ptr b p w.
Definition is_set (b : bank) (w : world) : bool := match w_ptr w b with Some _ => true | None => false end.
Definition add_obj (k : kind) (c : option nat) (w : world) : world := mkWorld (w_ptr w) (w_heap w) (w_objs w ++ [Some (k, c)]).

Fixpoint put {A} (i : nat) (x : A) (l : list A) : list A :=
  match l, i with [], _ => [] | _ :: l, O => x :: l | y :: l, S i => y :: put i x l end.

(* delete: nothing for the null pointer, undefined for a block that is not alive *)
Definition delete (p : option nat) (w : world) : outcome world :=
  match p with
  | None => Ret w
  | Some i => if nth i (w_heap w) false then Ret (mkWorld (w_ptr w) (put i false (w_heap w)) (w_objs w)) else UB
  end.

(* include/Snob2_session.hpp 34-54 *)
Definition new_session (w : world) : world :=
  let (c, w) := alloc w in
  let w := add_obj KSession (Some c) w in
  if is_set BCombi w then w else
  let w := new_bank BCombi w in
  if is_set BSn w then w else
  new_bank BCg (new_bank BChar (new_bank BFft (new_bank BRep (new_bank BSn w)))).

(* combinatorial/CombinatorialClasses.hpp 31-34 *)
Definition new_combi (w : world) : world :=
  let w := add_obj KCombi None w in
  if is_set BCombi w then w else new_bank BCombi w.

(* Sn/SnClasses.hpp 28-32 *)
Definition new_sn (w : world) : world :=
  let w := add_obj KSn None w in
  if is_set BSn w then w else new_bank BRep (new_bank BSn w).

(* destructors: include/Snob2_session.hpp 57-60, combinatorial/CombinatorialClasses.hpp 36-38, Sn/SnClasses.hpp 34-37.
   The global pointers keep their values *)
Definition destroy (i : nat) (w : world) : outcome world :=
  match nth i (w_objs w) None with
  | None => UB
  | Some (k, c) =>
      w <- match k with
           | KSession => delete c w
           | KCombi => delete (w_ptr w BCombi) w
           | KSn => w <- delete (w_ptr w BSn) w ;; delete (w_ptr w BRep) w
           end ;;
      Ret (mkWorld (w_ptr w) (w_heap w) (put i None (w_objs w)))
  end.

(* no copy constructor is declared: the copy has the same pointer *)
Definition copy (i : nat) (w : world) : outcome world :=
  match nth i (w_objs w) None with
  | None => UB
  | Some (k, c) => Ret (add_obj k c w)
  end.

(* a library call that goes through a global pointer, e.g. Sn/SnIrrep.hpp 38, Sn/SnFunction.hpp 43, combinatorial/IntegerPartitions.hpp 49 *)
Definition use (b : bank) (w : world) : outcome world :=
  match w_ptr w b with
  | None => UB
  | Some p => if nth p (w_heap w) false then Ret w else UB
  end.

Inductive sop := New (k : kind) | Copy (i : nat) | Destroy (i : nat) | Use (b : bank).

Definition sstep (o : sop) (w : world) : outcome world :=
  match o with
  | New KSession => Ret (new_session w)
  | New KCombi => Ret (new_combi w)
  | New KSn => Ret (new_sn w)
  | Copy i => copy i w
  | Destroy i => destroy i w
  | Use b => use b w
  end.

Fixpoint srun (os : list sop) (w : world) : outcome world :=
  match os with [] => Ret w | o :: os => w <- sstep o w ;; srun os w end.
