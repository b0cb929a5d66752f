(* Models random() of Sn/SnObj.hpp, Sn.hpp and Sn_ElementHelper.hpp.  The generator is a state g, and unif a b g stands
   for a draw of std::uniform_int_distribution<int>(a,b), with the next state. *)
From Coq Require Import ZArith List Bool.
From Verif Require Import Model_Base Model_Perm Model_Sn Model_Sn32.
Import ListNotations.
Open Scope Z_scope.

(* SnObj.hpp 121-124; Sn.hpp 91-93; Sn_ElementHelper.hpp 58-60.  A distribution with b<a is undefined. *)
Definition sn_random {G : Type} (unif : Z -> Z -> G -> Z * G) (n : Z) (g : G) : outcome (perm * G) :=
  s <- sn_size32 n ;;
  b <- i32 (s - 1) ;;
  if b <? 0 then UB
  else
    let '(e, g') := unif 0 b g in
    p <- sn_element32 n e ;;
    Ret (p, g').

(* k calls one after the other, each starting from the state the one before left *)
Fixpoint sn_randoms {G : Type} (unif : Z -> Z -> G -> Z * G) (n : Z) (k : nat) (g : G) : outcome (list perm * G) :=
  match k with
  | O => Ret ([], g)
  | S k' =>
      r <- sn_random unif n g ;;
      let '(p, g1) := r in
      r <- sn_randoms unif n k' g1 ;;
      let '(ps, g2) := r in
      Ret (p :: ps, g2)
  end.
