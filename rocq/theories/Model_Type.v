(* Models Sn/SnType.hpp, Sn/SnIsotypicObj.hpp, Sn/SnRepresentationObj.hpp and Sn/SnRepresentationBank.hpp.
   Multiplicities are C++ ints, modelled as unbounded integers. *)
From Coq Require Import ZArith List Bool.
From Verif Require Import Model_Base Model_Part Model_Comb.
Import ListNotations.
Open Scope Z_scope.

(* ---- std::map ---- *)

(* std::map<K,V> with the comparison lt: its entries in increasing order of the keys.  Simplification: a search
   compares the key with the entries from the smallest one on, the tree of the library follows one path.  For a
   strict order both end at the same entry, and both compare nothing exactly when the map is empty. *)
Section Map.
  Context {K V : Type} (lt : K -> K -> outcome bool).

  (* find *)
  Fixpoint sm_find (m : list (K * V)) (k : K) : outcome (option V) :=
    match m with
    | [] => Ret None
    | (k', v) :: m' => b <- lt k' k ;; if b : bool then sm_find m' k else c <- lt k k' ;; Ret (if c : bool then None else Some v)
    end.

  (* m[k]=v *)
  Fixpoint sm_put (m : list (K * V)) (k : K) (v : V) : outcome (list (K * V)) :=
    match m with
    | [] => Ret [(k, v)]
    | (k', v') :: m' =>
        b <- lt k' k ;;
        if b : bool then r <- sm_put m' k v ;; Ret ((k', v') :: r)
        else c <- lt k k' ;; Ret (if c : bool then (k, v) :: m else (k', v) :: m')
    end.

  (* the value of m[k] used as an expression: an absent key is inserted with the default value d *)
  Definition sm_ref (m : list (K * V)) (k : K) (d : V) : outcome (V * list (K * V)) :=
    r <- sm_find m k ;;
    match r with
    | Some v => Ret (v, m)
    | None => m <- sm_put m k d ;; Ret (d, m)
    end.
End Map.

(* ---- SnType ---- *)

(* SnType.hpp 17: map<IntegerPartition,int> *)
Notation stype := (list (list Z * Z)) (only parsing).

(* SnType.hpp 42-44: operator(); it goes through operator[], so a read may insert *)
Definition ty_call (t : stype) (l : part) : outcome (Z * stype) := sm_ref ip_lt t l 0.

(* SnType.hpp 46-49 *)
Definition ty_set (t : stype) (l : part) (m : Z) : outcome stype := sm_put ip_lt t l m.

(* SnType.hpp 51-55: the entry of lambda, inserted with 0 if absent, is increased by m *)
Definition ty_add (t : stype) (l : part) (m : Z) : outcome stype :=
  r <- sm_ref ip_lt t l 0 ;; let '(v, t) := r in sm_put ip_lt t l (v + m).

(* SnType.hpp 28-31 and 33-36: the constructors *)
Definition ty_new1 (l : part) (m : Z) : outcome stype := ty_set [] l m.
Definition ty_new (ps : list (list Z * Z)) : outcome stype := foldM (fun p t => ty_set t (fst p) (snd p)) ps [].

(* SnType.hpp 75-78: add(x,m) *)
Definition ty_add_type (t x : stype) (m : Z) : outcome stype := foldM (fun p t => ty_add t (fst p) (m * snd p)) x t.

(* SnType.hpp 80-87: down(tau) *)
Definition ty_down (tau : stype) : outcome stype :=
  foldM (fun p R => ms <- ip_foreach_sub (fst p) ;; foldM (fun mu R => ty_add R mu (snd p)) ms R) tau [].

(* SnType.hpp 89-96: down(lambda) *)
Definition ty_down1 (l : part) : outcome stype :=
  ms <- ip_foreach_sub l ;; foldM (fun mu R => ty_add R mu 1) ms [].

(* SnType.hpp 98-104: cat *)
Definition ty_cat (v : list stype) : outcome stype :=
  foldM (fun q tau => foldM (fun p tau => ty_add tau (fst p) (snd p)) q tau) v [].

(* operator< of std::pair<const IntegerPartition,int> *)
Definition pair_lt (x y : list Z * Z) : outcome bool :=
  a <- ip_lt (fst x) (fst y) ;;
  if a : bool then Ret true
  else b <- ip_lt (fst y) (fst x) ;; Ret (if b : bool then false else snd x <? snd y).

(* operator< of std::map: lexicographical_compare of the entries *)
Fixpoint ty_lt (x y : stype) : outcome bool :=
  match x, y with
  | p :: x', q :: y' => a <- pair_lt p q ;; if a : bool then Ret true else b <- pair_lt q p ;; if b : bool then Ret false else ty_lt x' y'
  | [], _ :: _ => Ret true
  | _, [] => Ret false
  end.

(* ---- SnRepresentationObj ---- *)

(* SnIsotypicObj.hpp 21-23.  The irrep is given by its partition; the pointers in subs lead into the map of the
   representation this one was induced from and are given by their keys there. *)
Record iso := mkIso { is_lambda : list Z; is_m : Z; is_subs : list (list Z) }.
Notation isos := (list (list Z * iso)) (only parsing).

(* SnRepresentationObj.hpp 25-28: induced and restricted are addresses on the heap of representations *)
Record robj := mkRobj { ro_iso : list (list Z * iso); ro_induced : option nat; ro_restricted : option nat }.

(* SnRepresentationObj.hpp 35-39 *)
Definition rep_isos (t : stype) : outcome isos := foldM (fun p r => sm_put ip_lt r (fst p) (mkIso (fst p) (snd p) [])) t [].

(* SnRepresentationObj.hpp 45-50: get_type *)
Definition rep_type (r : isos) : outcome stype := foldM (fun p t => sm_put ip_lt t (fst p) (is_m (snd p))) r [].

(* SnRepresentationObj.hpp 74-80: add; key is the key of sub in its own map *)
Definition rep_add (r : isos) (l key : part) (sub : iso) : outcome isos :=
  f <- sm_find ip_lt r l ;;
  r <- match f with Some _ => Ret r | None => sm_put ip_lt r l (mkIso l 0 []) end ;;
  f <- sm_find ip_lt r l ;;
  match f with
  | Some i => sm_put ip_lt r l (mkIso (is_lambda i) (is_m i + is_m sub) (is_subs i ++ [key]))
  | None => UB
  end.

(* SnRepresentationObj.hpp 82-103: the isotypics of the induced representation *)
Definition rep_induce (r : isos) : outcome isos :=
  foldM (fun p mu =>
    let lambda := is_lambda (snd p) in
    let k := zlen lambda in
    mu <- zfor 0 k (fun i mu =>
      b <- (if i =? 0 then Ret true else x <- rd lambda i ;; y <- rd lambda (i - 1) ;; Ret (x <? y)) ;;
      if b : bool then x <- rd lambda i ;; up <- wr lambda i (x + 1) ;; rep_add mu up (fst p) (snd p) else Ret mu) mu ;;
    up <- ip_add lambda k 1 ;;
    rep_add mu up (fst p) (snd p)) r [].

(* the objects on the heap; reading a dead address is undefined *)
Definition rh_get (h : list robj) (a : nat) : outcome robj := match nth_error h a with Some o => Ret o | None => UB end.
Fixpoint rh_set (h : list robj) (a : nat) (o : robj) : list robj :=
  match h, a with
  | [], _ => []
  | _ :: h', O => o :: h'
  | o' :: h', S a' => o' :: rh_set h' a' o
  end.

(* SnRepresentationObj.hpp 52-55 with 82-104: get_induced *)
Definition rep_get_induced (h : list robj) (a : nat) : outcome (nat * list robj) :=
  o <- rh_get h a ;;
  match ro_induced o with
  | Some b => Ret (b, h)
  | None =>
      _ <- rep_type (ro_iso o) ;;
      i <- rep_induce (ro_iso o) ;;
      let b := length h in
      Ret (b, rh_set h a (mkRobj (ro_iso o) (Some b) (ro_restricted o)) ++ [mkRobj i None (Some a)])
  end.

(* SnRepresentationObj.hpp 57-60: get_restricted; exit(-1) without one *)
Definition rep_get_restricted (h : list robj) (a : nat) : outcome nat :=
  o <- rh_get h a ;;
  match ro_restricted o with Some b => Ret b | None => Abort end.

(* ---- SnRepresentationBank ---- *)

(* SnRepresentationBank.hpp 23 *)
Record rbank := mkRbank { rb_reps : list (list (list Z * Z) * nat); rb_heap : list robj }.

(* SnRepresentationBank.hpp 32-35 *)
Definition rb_get (b : rbank) (tau : stype) : outcome (nat * rbank) :=
  f <- sm_find ty_lt (rb_reps b) tau ;;
  b <- match f with
       | Some _ => Ret b
       | None =>
           i <- rep_isos tau ;;
           m <- sm_put ty_lt (rb_reps b) tau (length (rb_heap b)) ;;
           Ret (mkRbank m (rb_heap b ++ [mkRobj i None None]))
       end ;;
  f <- sm_find ty_lt (rb_reps b) tau ;;
  match f with Some a => Ret (a, b) | None => UB end.
