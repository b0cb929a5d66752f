(* Real sums and matrices, independently of the model. *)
From Coq Require Import ZArith List Reals.
From Verif Require Import Spec_Perm Spec_Part Spec_Tab.
Import ListNotations.
Open Scope Z_scope.

(* f 0 + f 1 + ... + f (n-1) *)
Definition rsum (n : Z) (f : Z -> R) : R := fold_right Rplus 0%R (map (fun k => f (Z.of_nat k)) (seq 0 (Z.to_nat n))).

(* entries of the identity matrix, of a product of d x d matrices, of a transposed matrix *)
Definition delta (i j : Z) : R := if Z.eq_dec i j then 1%R else 0%R.
Definition mprod (d : Z) (A B : Z -> Z -> R) (i j : Z) : R := rsum d (fun k => (A i k * B k j)%R).
Definition mtrans (A : Z -> Z -> R) (i j : Z) : R := A j i.
Definition trace (d : Z) (A : Z -> Z -> R) : R := rsum d (fun i => A i i).

(* equality of the entries in the range 0..r-1, 0..c-1 *)
Definition agree (r c : Z) (A B : Z -> Z -> R) : Prop := forall i j, 0 <= i < r -> 0 <= j < c -> A i j = B i j.

(* c is the content (column minus row) of the box that holds v in the tableau t of shape lambda *)
Definition has_content (lambda : list Z) (t : list (list Z)) (v c : Z) : Prop :=
  exists r k, cell lambda r k /\ entry t r k = v /\ c = k - r.

(* t' is t with the numbers i and i+1 exchanged *)
Definition exchanged (i : Z) (t t' : list (list Z)) : Prop :=
  t' = map (map (fun v => if Z.eq_dec v i then i + 1 else if Z.eq_dec v (i + 1) then i else v)) t.

(* c = a*b as permutations of 1..n: first b, then a *)
Definition is_mult (n : Z) (a b c : list Z) : Prop :=
  is_perm n c /\ forall i, 1 <= i <= n -> img c i = img a (img b i).
Definition is_identity (n : Z) (p : list Z) : Prop := is_perm n p /\ forall i, 1 <= i <= n -> img p i = i.
Definition is_inverse (n : Z) (p q : list Z) : Prop := is_perm n q /\ forall i, 1 <= i <= n -> img q (img p i) = i.

(* p is the product of the disjoint cycles cs, which together contain each of 1..n once: each number is
   sent to the next one in its cycle and the last one to the first *)
Definition has_cycles (n : Z) (p : list Z) (cs : list (list Z)) : Prop :=
  is_perm n (concat cs) /\
  forall c k, In c cs -> (k < length c)%nat ->
    img p (nth k c 0) = nth (if Nat.eq_dec (S k) (length c) then 0%nat else S k) c 0.

(* the cycle lengths of p are mu, in some order given by the list of cycles *)
Definition cycle_type (n : Z) (p mu : list Z) : Prop :=
  is_perm n p /\ exists cs, has_cycles n p cs /\ map (fun c => Z.of_nat (length c)) cs = mu.
