(* Sn/Sn.hpp:class_size with 32-bit int: same control flow as class_size in Model_Class, and a result that does not fit
   an int is UB. *)
From Coq Require Import ZArith List Bool.
From Verif Require Import Model_Base Model_Sn Model_Sn32.
Import ListNotations.
Open Scope Z_scope.

(* Sn.hpp 131 and 136: t*=pow(prev,count)*factorial(count).  The factorial is an int; the product is a double that is
   converted to int, which is undefined when it does not fit.  The double is exact below 2^53 and so wherever the
   conversion is defined; it is modelled in exact integers. *)
Definition cs_close32 (t prev count : Z) : outcome Z :=
  f <- zfact32 count ;; i32 (t * (prev ^ count * f)).

(* Sn.hpp 123-138 *)
Definition class_size32 (n : Z) (lambda : list Z) : outcome Z :=
  if zlen lambda =? 0 then Ret 0
  else
    prev <- rd lambda 0 ;;
    st <- zfor 1 (zlen lambda)
            (fun i st =>
               let '(prev, count, t) := st in
               x <- rd lambda i ;;
               if x =? prev then c <- i32 (count + 1) ;; Ret (prev, c, t)
               else t <- cs_close32 t prev count ;; y <- rd lambda i ;; Ret (y, 1, t))
            (prev, 1, 1) ;;
    let '(prev, count, t) := st in
    t <- cs_close32 t prev count ;;
    f <- zfact32 n ;;
    cdiv f t.
