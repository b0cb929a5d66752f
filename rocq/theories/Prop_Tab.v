(* C19-C22: Young tableaux.  The shape of a tableau is [map (fun row => Z.of_nat (length row)) t]. *)
From Coq Require Import ZArith List Bool Sorted.
From Verif Require Import Model_Base Model_Part Model_Comb Model_Tab Spec_Perm Spec_Part Spec_Tab Proof_TabProps.
Import ListNotations.
Open Scope Z_scope.

(* complete, without repetition, and in last-letter order *)
Theorem C19_tableaux_complete : forall n lambda, is_part n lambda -> 1 <= n ->
  exists L, young_tableaux lambda = Ret L /\ NoDup L /\ (forall t, In t L <-> standard lambda t) /\
    StronglySorted last_letter L.
Proof. exact tableaux_complete. Qed.
Print Assumptions C19_tableaux_complete.

Example C19_example : young_tableaux [3;2] =
  Ret [[[1;2;3];[4;5]]; [[1;2;4];[3;5]]; [[1;3;4];[2;5]]; [[1;2;5];[3;4]]; [[1;3;5];[2;4]]].
Proof. reflexivity. Qed.

Definition shape_of (t : list (list Z)) : list Z := map (fun row => Z.of_nat (length row)) t.

Theorem C20_apply_transp_swaps : forall t i j, NoDup (concat t) -> In i (concat t) -> In j (concat t) ->
  exists t' d, yt_apply_transp t i j = Ret (t', d) /\ shape_of t' = shape_of t /\
    (forall r c, cell (shape_of t) r c ->
       (entry t r c = i -> entry t' r c = j) /\ (entry t r c = j -> entry t' r c = i) /\
       (entry t r c <> i -> entry t r c <> j -> entry t' r c = entry t r c)) /\
    (forall r1 c1 r2 c2, cell (shape_of t) r1 c1 -> cell (shape_of t) r2 c2 ->
       entry t r1 c1 = i -> entry t r2 c2 = j -> d = (c2 - r2) - (c1 - r1)) /\
    yt_apply_transp t' i j = Ret (t, - d).
Proof. exact apply_transp_spec. Qed.
Print Assumptions C20_apply_transp_swaps.

Theorem C20_apply_transp_on_standard : forall n lambda t i, is_part n lambda -> standard lambda t -> 1 <= i -> i + 1 <= n ->
  exists t' d, yt_apply_transp t i (i + 1) = Ret (t', d) /\ d <> 0 /\ (standard lambda t' <-> d <> 1 /\ d <> -1).
Proof. exact apply_transp_standard. Qed.
Print Assumptions C20_apply_transp_on_standard.

Example C20_example : yt_apply_transp [[1;2;4];[3;5]] 3 4 = Ret ([[1;2;3];[4;5]], 3) /\
  yt_apply_transp [[1;2;4];[3;5]] 1 2 = Ret ([[2;1;4];[3;5]], 1).
Proof. split; reflexivity. Qed.

Theorem C21_default_tableau_standard : forall n lambda, is_part n lambda ->
  exists t, yt_of_partition lambda = Ret t /\ standard lambda t.
Proof. exact default_standard. Qed.
Print Assumptions C21_default_tableau_standard.

Theorem C21_at_inside : forall t r c, cell (shape_of t) r c -> yt_at t r c = Ret (entry t r c).
Proof. exact yt_at_ok. Qed.
Print Assumptions C21_at_inside.

Theorem C21_at_throws_outside : forall t r c, ~ cell (shape_of t) r c -> yt_at t r c = Throw.
Proof. exact yt_at_throw. Qed.
Print Assumptions C21_at_throws_outside.

Theorem C21_index_inverts_at : forall t r c, NoDup (concat t) -> cell (shape_of t) r c ->
  yt_index t (entry t r c) = (r, c).
Proof. exact yt_index_ok. Qed.
Print Assumptions C21_index_inverts_at.

Theorem C21_index_absent_is_origin : forall t m, ~ In m (concat t) -> yt_index t m = (0, 0).
Proof. exact yt_index_absent. Qed.
Print Assumptions C21_index_absent_is_origin.

Theorem C21_shape : forall t, yt_shape t = Ret (shape_of t).
Proof. exact yt_shape_ok. Qed.
Print Assumptions C21_shape.

Example C21_example : yt_of_partition [3;2] = Ret [[1;2;3];[4;5]] /\ yt_at [[1;2;3];[4;5]] 1 1 = Ret 5 /\
  yt_at [[1;2;3];[4;5]] 1 2 = Throw /\ yt_index [[1;2;3];[4;5]] 5 = (1,1) /\ yt_shape [[1;2;3];[4;5]] = Ret [3;2].
Proof. repeat split; reflexivity. Qed.

Theorem C22_remove_undoes_add : forall t r j, (forall row, In row t -> row <> []) -> 0 <= r <= Z.of_nat (length t) ->
  exists t', yt_add t r j = Ret t' /\ yt_remove t' r = Ret t.
Proof. exact add_remove. Qed.
Print Assumptions C22_remove_undoes_add.

(* remove takes the last entry of row r off when that row has at least two entries or is the last row *)
Theorem C22_remove_is_undone_by_add_partial : forall t r, 0 <= r < Z.of_nat (length t) ->
  (2 <= Z.of_nat (length (nth (Z.to_nat r) t [])) \/
   (Z.of_nat (length (nth (Z.to_nat r) t [])) = 1 /\ r = Z.of_nat (length t) - 1)) ->
  exists t' v, yt_remove t r = Ret t' /\ yt_add t' r v = Ret t.
Proof. exact remove_last_entry. Qed.
Print Assumptions C22_remove_is_undone_by_add_partial.

(* an interior row with one entry: the last row goes instead, and row r is untouched *)
Theorem C22_remove_interior_row_refuted : exists t r t', standard [1;1;1] t /\ yt_remove t r = Ret t' /\ 0 <= r < 2 /\
  nth (Z.to_nat r) t' [] = nth (Z.to_nat r) t [] /\ Z.of_nat (length t') = 2.
Proof. exact remove_interior_fails. Qed.
Print Assumptions C22_remove_interior_row_refuted.

Example C22_example : yt_add [[1;2];[3]] 1 4 = Ret [[1;2];[3;4]] /\ yt_remove [[1;2];[3;4]] 1 = Ret [[1;2];[3]] /\
  yt_add [[1;2];[3]] 2 4 = Ret [[1;2];[3];[4]] /\ yt_remove [[1;2];[3];[4]] 2 = Ret [[1;2];[3]].
Proof. repeat split; reflexivity. Qed.
