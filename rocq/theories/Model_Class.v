(* Models Sn/Sn.hpp:class_size and include/Snob2_base.hpp:order. *)
From Coq Require Import ZArith List Bool.
From Verif Require Import Model_Base Model_Sn.
Import ListNotations.
Open Scope Z_scope.

(* Sn.hpp 131 and 136: t*=pow(prev,count)*factorial(count).  pow returns a double; the product is modelled in exact
   integers. *)
Definition cs_close (t prev count : Z) : Z := t * (prev ^ count * zfact count).

(* Sn.hpp 123-138 *)
Definition class_size (n : Z) (lambda : list Z) : outcome Z :=
  if zlen lambda =? 0 then Ret 0
  else
    prev <- rd lambda 0 ;;
    st <- zfor 1 (zlen lambda)
            (fun i st =>
               let '(prev, count, t) := st in
               x <- rd lambda i ;;
               if x =? prev then Ret (prev, count + 1, t)
               else y <- rd lambda i ;; Ret (y, 1, cs_close t prev count))
            (prev, 1, 1) ;;
    let '(prev, count, t) := st in
    cdiv (zfact n) (cs_close t prev count).

(* Snob2_base.hpp 66-82; lt is operator< of the type *)
Definition order3 {K : Type} (lt : K -> K -> outcome bool) (x0 x1 x2 : K) : outcome (K * K * K) :=
  a <- lt x0 x1 ;;
  if a : bool then
    b <- lt x1 x2 ;;
    if b : bool then Ret (x0, x1, x2)
    else c <- lt x0 x2 ;; if c : bool then Ret (x0, x2, x1) else Ret (x2, x0, x1)
  else
    c <- lt x0 x2 ;;
    if c : bool then Ret (x1, x0, x2)
    else b <- lt x1 x2 ;; if b : bool then Ret (x1, x2, x0) else Ret (x2, x0, x1).
