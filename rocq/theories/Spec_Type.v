(* Types of representations, independently of the model: finite multisets of partitions. *)
From Coq Require Import ZArith List Sorted.
From Verif Require Import Model_Base Model_Comb Model_Tab Model_Type.
From Verif Require Import Spec_Part.
Import ListNotations.
Open Scope Z_scope.

(* the multiplicity of l in a list of entries; 0 if there is none *)
Fixpoint mult (t : list (list Z * Z)) (l : list Z) : Z :=
  match t with
  | [] => 0
  | (k, m) :: t' => if list_eq_dec Z.eq_dec k l then m else mult t' l
  end.

(* a list of entries that a map keyed by partitions of n can hold: each partition once, the lexicographically
   largest first *)
Definition type_of (n : Z) (t : list (list Z * Z)) : Prop :=
  StronglySorted lex_greater (map fst t) /\ Forall (is_part n) (map fst t).

(* the operations of a user, and what they do to the multiplicities.  The read of l is followed by what it returned. *)
Inductive top :=
| TSet (l : list Z) (m : Z)
| TAdd (l : list Z) (m : Z)
| TAddType (x : list (list Z * Z)) (m : Z)
| TRead (l : list Z).
Definition at_part (f : list Z -> Z) (l : list Z) (v : Z) : list Z -> Z := fun l' => if list_eq_dec Z.eq_dec l l' then v else f l'.
Definition tmeaning (o : top) (f : list Z -> Z) : list Z -> Z :=
  match o with
  | TSet l m => at_part f l m
  | TAdd l m => at_part f l (f l + m)
  | TAddType x m => fun l => f l + m * mult x l
  | TRead l => f
  end.
Definition tanswer (o : top) (f : list Z -> Z) : option Z := match o with TRead l => Some (f l) | _ => None end.

(* running the operations on a type, and on a total map that starts at 0 *)
Definition tstep (o : top) (t : list (list Z * Z)) : outcome (option Z * list (list Z * Z)) :=
  match o with
  | TSet l m => t <- ty_set t l m ;; Ret (None, t)
  | TAdd l m => t <- ty_add t l m ;; Ret (None, t)
  | TAddType x m => t <- ty_add_type t x m ;; Ret (None, t)
  | TRead l => r <- ty_call t l ;; Ret (Some (fst r), snd r)
  end.
Fixpoint trun (os : list top) (t : list (list Z * Z)) : outcome (list (option Z) * list (list Z * Z)) :=
  match os with
  | [] => Ret ([], t)
  | o :: os => r <- tstep o t ;; s <- trun os (snd r) ;; Ret (fst r :: fst s, snd s)
  end.
Fixpoint smeaning (os : list top) (f : list Z -> Z) : list Z -> Z := match os with [] => f | o :: os => smeaning os (tmeaning o f) end.
Fixpoint sanswers (os : list top) (f : list Z -> Z) : list (option Z) := match os with [] => [] | o :: os => tanswer o f :: sanswers os (tmeaning o f) end.

(* the operations name partitions of n only *)
Definition legal_top (n : Z) (o : top) : Prop :=
  match o with
  | TSet l _ | TAdd l _ | TRead l => is_part n l
  | TAddType x _ => type_of n x
  end.

(* the partitions that an operation mentions *)
Definition mentions (o : top) : list (list Z) :=
  match o with TSet l _ | TAdd l _ | TRead l => [l] | TAddType x _ => map fst x end.

(* D is the dimension of the type t: multiplicity times number of standard tableaux, summed *)
Definition type_dim (t : list (list Z * Z)) (D : Z) : Prop :=
  exists ds, Forall2 (fun p d => exists ts, young_tableaux (fst p) = Ret ts /\ d = snd p * Z.of_nat (length ts)) t ds /\ D = zsum ds.

(* the sum over the partitions in L of f, and the pairing of two types *)
Definition zsum_over {A} (L : list A) (f : A -> Z) : Z := zsum (map f L).

(* t' is the type of the representation of S_{n+1} induced from one of type t of S_n: the multiplicity of a partition
   is the sum of the multiplicities of the partitions below it *)
Definition induced_type (n : Z) (t t' : list (list Z * Z)) : Prop :=
  type_of (n + 1) t' /\
  (forall x, In x (map fst t') <-> is_part (n + 1) x /\ exists l, In l (map fst t) /\ contained l x) /\
  forall x L, is_part (n + 1) x -> NoDup L -> (forall l, In l L <-> is_part n l /\ contained l x) -> mult t' x = zsum_over L (mult t).

(* what a user of the bank can do: ask for the representation of a type, for the one induced from an object or for the
   one an object was induced from.  Every operation answers with the address of an object. *)
Inductive rop := RGet (tau : list (list Z * Z)) | RInd (a : nat) | RRes (a : nat).
Definition rstep (o : rop) (b : rbank) : outcome (nat * rbank) :=
  match o with
  | RGet tau => rb_get b tau
  | RInd a => r <- rep_get_induced (rb_heap b) a ;; Ret (fst r, mkRbank (rb_reps b) (snd r))
  | RRes a => x <- rep_get_restricted (rb_heap b) a ;; Ret (x, b)
  end.
Fixpoint rrun (os : list rop) (b : rbank) : outcome (list nat * rbank) :=
  match os with
  | [] => Ret ([], b)
  | o :: os => r <- rstep o b ;; s <- rrun os (snd r) ;; Ret (fst r :: fst s, snd s)
  end.

(* the object at address a holds a representation of type t *)
Definition type_at (b : rbank) (a : nat) (t : list (list Z * Z)) : Prop :=
  exists o, nth_error (rb_heap b) a = Some o /\ rep_type (ro_iso o) = Ret t.

(* the requests name types of S_n *)
Definition legal_rop (n : Z) (o : rop) : Prop := match o with RGet tau => type_of n tau | _ => True end.
