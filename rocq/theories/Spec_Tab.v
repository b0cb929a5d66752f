(* Young tableaux, independently of the model. *)
From Coq Require Import ZArith List.
From Verif Require Import Spec_Perm Spec_Part.
Import ListNotations.
Open Scope Z_scope.

(* entry in row r, column c, both numbered from 0 *)
Definition entry (t : list (list Z)) (r c : Z) : Z := nth (Z.to_nat c) (nth (Z.to_nat r) t []) 0.

Definition has_shape (lambda : list Z) (t : list (list Z)) : Prop :=
  map (fun row => Z.of_nat (length row)) t = lambda.

(* (r,c) is a cell of a diagram with row lengths lambda *)
Definition cell (lambda : list Z) (r c : Z) : Prop := 0 <= r < Z.of_nat (length lambda) /\ 0 <= c < row lambda r.

(* standard Young tableau of shape lambda: the numbers 1..n, n=|lambda|, each once, increasing
   along rows and down columns *)
Definition standard (lambda : list Z) (t : list (list Z)) : Prop :=
  has_shape lambda t /\ is_perm (zsum lambda) (concat t) /\
  (forall r c, cell lambda r c -> cell lambda r (c + 1) -> entry t r c < entry t r (c + 1)) /\
  (forall r c, cell lambda r c -> cell lambda (r + 1) c -> entry t r c < entry t (r + 1) c).

(* v stands in row r of t *)
Definition row_of (t : list (list Z)) (v r : Z) : Prop := 0 <= r /\ In v (nth (Z.to_nat r) t []).

(* last-letter order: at the largest number whose row differs, t has it in a lower row (one with a
   larger number) than t' *)
Definition last_letter (t t' : list (list Z)) : Prop :=
  exists v r r', row_of t v r /\ row_of t' v r' /\ r' < r /\ forall w s, v < w -> (row_of t w s <-> row_of t' w s).
