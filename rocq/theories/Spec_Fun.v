(* Real functions on the symmetric group, independently of the model. *)
From Coq Require Import ZArith List Reals.
From Verif Require Import Spec_Perm Spec_Four.
Import ListNotations.
Open Scope Z_scope.

(* s = p o q as maps of {1..n} *)
Definition composes (n : Z) (p q s : list Z) : Prop := forall i, 1 <= i <= n -> img s i = img p (img q i).

(* p and q undo each other *)
Definition inverse_perms (n : Z) (p q : list Z) : Prop := forall i, 1 <= i <= n -> img p (img q i) = i.

(* the convolution of two functions on Sn at s: sum over t of f(s t^-1) g(t).  Instead of naming s t^-1,
   sum over all pairs (u,t) of permutations with u o t = s. *)
Definition convolution_at (n : Z) (F G : list Z -> R) (s : list Z) (x : R) : Prop :=
  forall L u, lists_Sn n L -> (forall t, In t L -> is_perm n (u t) /\ composes n (u t) t s) ->
    x = sum_over L (fun t => (F (u t) * G t)%R).

(* the inner product of two tensors: the sum of the products of the entries *)
Definition dot (v w : list R) : R := fold_right Rplus 0%R (map (fun p => (fst p * snd p)%R) (combine v w)).
