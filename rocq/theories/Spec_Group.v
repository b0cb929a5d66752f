(* Finite groups and their representations, independently of the three group classes. *)
From Coq Require Import ZArith List Reals.
From Verif Require Import Model_Base Model_Group.
Import ListNotations.
Open Scope Z_scope.

(* x is an element of the group: element(i) returns it for some i below size() *)
Definition in_group {E} (G : gops E) (x : E) : Prop := exists i, 0 <= i < g_size G /\ g_element G i = Ret x.

(* element() lists distinct objects; product and inverse never fail, stay in the group and satisfy the group axioms *)
Record is_group {E} (G : gops E) : Prop := {
  gr_size : 1 <= g_size G;
  gr_element : forall i, 0 <= i < g_size G -> exists x, g_element G i = Ret x;
  gr_distinct : forall i j x, 0 <= i < g_size G -> 0 <= j < g_size G -> g_element G i = Ret x -> g_element G j = Ret x -> i = j;
  gr_identity : in_group G (g_identity G);
  gr_closed : forall x y, in_group G x -> in_group G y -> exists z, g_mul G x y = Ret z /\ in_group G z;
  gr_assoc : forall x y z u v, in_group G x -> in_group G y -> in_group G z -> g_mul G x y = Ret u -> g_mul G y z = Ret v -> g_mul G u z = g_mul G x v;
  gr_id_l : forall x, in_group G x -> g_mul G (g_identity G) x = Ret x;
  gr_id_r : forall x, in_group G x -> g_mul G x (g_identity G) = Ret x;
  gr_inv : forall x, in_group G x -> exists y, g_inverse G x = Ret y /\ in_group G y /\ g_mul G x y = Ret (g_identity G) /\ g_mul G y x = Ret (g_identity G) }.

(* index() undoes element() *)
Definition index_of {E} (G : gops E) (index : E -> Z) : Prop := forall i x, 0 <= i < g_size G -> g_element G i = Ret x -> index x = i.

(* sums of complex numbers *)
Definition csum {A} (L : list A) (f : A -> R * R) : R * R := fold_right cadd cx0 (map f L).
(* 0, 1, ..., N-1 *)
Definition upto (N : Z) : list Z := map Z.of_nat (seq 0 (Z.to_nat N)).

(* entry (p,q) of a d x d matrix stored by rows *)
Definition entry (d : Z) (t : ctensor) (p q : Z) : R * R := nth (Z.to_nat (p * d + q)) (t_v t) cx0.

(* rho(i) is a d x d matrix, where d = dim(), for every element number i *)
Definition square (N : Z) (rho : girr) : Prop := 1 <= i_dim rho /\ forall i, 0 <= i < N -> Z.of_nat (length (t_v (i_at rho i))) = i_dim rho * i_dim rho.

(* rho is a unitary representation of the group *)
Definition unitary_rep {E} (G : gops E) (index : E -> Z) (rho : girr) : Prop :=
  let d := i_dim rho in
  let M x := entry d (i_at rho (index x)) in
  square (g_size G) rho /\
  (forall x y z p q, in_group G x -> in_group G y -> g_mul G x y = Ret z -> 0 <= p < d -> 0 <= q < d ->
     M z p q = csum (upto d) (fun k => cmul (M x p k) (M y k q))) /\
  (forall p q, 0 <= p < d -> 0 <= q < d -> M (g_identity G) p q = if p =? q then cx1 else cx0) /\
  (forall x p q, in_group G x -> 0 <= p < d -> 0 <= q < d ->
     csum (upto d) (fun k => cmul (M x p k) (cconj (M x q k))) = if p =? q then cx1 else cx0).

(* the trace of rho(i) *)
Definition character (rho : girr) (i : Z) : R * R := csum (upto (i_dim rho)) (fun p => entry (i_dim rho) (i_at rho i) p p).

(* the irreps are unitary representations that together make up the regular representation: the sum of dim * trace is
   the order of the group at the identity and 0 elsewhere *)
Definition complete_irreps {E} (G : gops E) (index : E -> Z) (nirr : Z) (irrep : Z -> outcome girr) : Prop :=
  (forall i, 0 <= i < nirr -> exists rho, irrep i = Ret rho /\ unitary_rep G index rho) /\
  forall rhos, Forall2 (fun i rho => irrep i = Ret rho) (upto nirr) rhos -> forall j, 0 <= j < g_size G ->
    csum rhos (fun rho => cmul (creal (IZR (i_dim rho))) (character rho j)) = if j =? index (g_identity G) then creal (IZR (g_size G)) else cx0.

(* the element r^i s, with s the reflection of sign -1, moves corner v of a regular n-gon with corners 0..n-1 to corner i + sv *)
Definition corner (n : Z) (x : delt) (v : Z) : Z := (d_i x + d_s x * v) mod n.

(* a d x d matrix; for d = 1 the tensor may have the single dimension 1 *)
Definition mat_dims (d : Z) (x : ctensor) : Prop := (t_dims x = [d; d] \/ d = 1 /\ t_dims x = [1]) /\ Z.of_nat (length (t_v x)) = d * d.

(* f is real valued *)
Definition real_valued (f : list (R * R)) : Prop := forall v, In v f -> snd v = 0%R.
