(* C89, C90: loops over the elements, irreps, classes and characters of a group, over partitions and over tableaux. *)
From Coq Require Import ZArith List Bool Lia.
From Verif Require Import Model_Base Model_Perm Model_Sn Model_Part Model_Comb Model_Tab Model_SnBank Model_Char Model_Loop.
From Verif Require Import Spec_Perm Spec_Part Spec_Tab Spec_SnBank Spec_Char Proof_Part Proof_TabProps Proof_Loop Proof_LoopChar.
Import ListNotations.
Open Scope Z_scope.

(* for(auto s: Sn(n).elements): every permutation once, in the order of the index *)
Theorem C89_elements : forall n, 1 <= n -> exists L, elements_loop n = Ret (L, tt) /\ NoDup L /\ (forall s, In s L <-> is_perm n s) /\
  forall i, 0 <= i < Z.of_nat (length L) -> sn_element n i = Ret (nth (Z.to_nat i) L []).
Proof. exact elements_each_once. Qed.
Print Assumptions C89_elements.

(* for(auto r: Sn(n).irreps): every irrep once, whatever was asked before the loop and whatever its body asks for *)
Theorem C89_irreps : forall qs body n, Forall legal_call qs -> (forall i, Forall legal_call (body i)) -> 1 <= n ->
  exists as1 s1 ps s2 ls, srun qs ss0 = Ret (as1, s1) /\ irreps_loop n body s1 = Ret (ps, s2) /\
    NoDup ls /\ (forall p, In p ls <-> is_part n p) /\ Forall2 (at_lambda s2) ps ls.
Proof. exact irreps_each_once. Qed.
Print Assumptions C89_irreps.

(* for(auto c: Sn(n).cclasses): the classes in the order in which the partitions are listed, always *)
Theorem C89_classes : forall qs body n L, Forall legal_call qs -> (forall i, Forall legal_call (body i)) -> 1 <= n -> integer_partitions n = Ret L ->
  exists as1 s1 s2, srun qs ss0 = Ret (as1, s1) /\ classes_loop n body s1 = Ret (L, s2).
Proof. exact classes_in_order. Qed.
Print Assumptions C89_classes.

(* for(auto c: Sn(n).characters): the character of every partition once *)
Theorem C89_characters : forall qs body n, Forall legal_chq qs -> (forall i, Forall legal_chq (body i)) -> 1 <= n ->
  exists fs1 b1 fs b2 ls, chrun qs [] = Ret (fs1, b1) /\ chars_loop n body b1 = Ret (fs, b2) /\
    NoDup ls /\ (forall p, In p ls <-> is_part n p) /\ Forall2 (fun f l => character_of n l f) fs ls.
Proof. exact chars_each_once. Qed.
Print Assumptions C89_characters.

(* for(auto l: IntegerPartitions(n)) and for(auto t: StandardYoungTableaux(l)): the lists of C12 and C19 *)
Theorem C89_partitions : forall n L, integer_partitions n = Ret L -> parts_loop n = Ret (L, tt).
Proof. exact parts_loop_ok. Qed.
Print Assumptions C89_partitions.
Theorem C89_tableaux : forall lambda L, young_tableaux lambda = Ret L -> tabs_loop lambda = Ret (L, tt).
Proof. exact tabs_loop_ok. Qed.
Print Assumptions C89_tableaux.

(* IntegerPartitions(n)(first,last): the partitions numbered first to last, both included *)
Theorem C89_slice : forall n L first last, integer_partitions n = Ret L -> 0 <= first -> first <= last + 1 -> last < Z.of_nat (length L) ->
  parts_slice n first last = Ret (firstn (Z.to_nat (last - first + 1)) (skipn (Z.to_nat first) L)).
Proof. exact parts_slice_ok. Qed.
Print Assumptions C89_slice.
(* with the number of partitions as last it leaves the array *)
Theorem C89_slice_out_of_range : forall n L first last, integer_partitions n = Ret L -> 0 <= first <= Z.of_nat (length L) ->
  Z.of_nat (length L) <= last -> parts_slice n first last = UB.
Proof. exact parts_slice_out. Qed.
Print Assumptions C89_slice_out_of_range.

Example C89_example : elements_loop 3 = Ret ([[1;2;3];[2;1;3];[1;3;2];[2;3;1];[3;1;2];[3;2;1]], tt) /\
  (r <- srun [SIrrep [2;1]; SGroup 5] ss0 ;; t <- irreps_loop 3 (fun i => if i =? 1 then [SIrrep [2;2]; SAll 3] else []) (snd r) ;;
     Ret (fst t, map ir_lambda (ss_irr (snd t)))) = Ret ([0;1;2], [[2;1];[3];[1;1;1];[2;2]]) /\
  (r <- srun [SIrrep [2;1]] ss0 ;; t <- classes_loop 3 (fun i => [SAll 3]) (snd r) ;; Ret (fst t)) = Ret [[3];[2;1];[1;1;1]] /\
  parts_slice 4 1 3 = Ret [[3;1];[2;2];[2;1;1]] /\ parts_slice 4 1 5 = UB.
Proof. repeat split; vm_compute; reflexivity. Qed.
Example C89_example_legal : Forall legal_call [SIrrep [2;1]; SGroup 5] /\ Forall legal_chq [ChNew [2;1]; ChOf 3 [3]].
Proof.
  assert (is_part 3 [2; 1]) as P by (apply decb_part; reflexivity). assert (is_part 3 [3]) as P' by (apply decb_part; reflexivity). split.
  - constructor; [exists 3; split; [lia|auto]|]. constructor; [cbn; lia|constructor].
  - constructor; [exists 3; split; [lia|auto]|]. constructor; [split; [lia|auto]|constructor].
Qed.

(* Python: a loop over one of these objects asks for item after item until an exception is raised, and none is.
   After the last item the next call leaves the array *)
Theorem C90_python_elements_refuted : forall n, 2 <= n ->
  exists L, elements_loop n = Ret (L, tt) /\ forall k, py_loop (sn_element n) 0 k = if (k <=? length L)%nat then Ret (firstn k L, false) else UB.
Proof. exact py_elements. Qed.
Print Assumptions C90_python_elements_refuted.

(* over S_1 the loop does not end: every number is accepted *)
Theorem C90_python_trivial_group_refuted : forall k, py_loop (sn_element 1) 0 k = Ret (repeat [1] k, false).
Proof. exact py_elements_one. Qed.
Print Assumptions C90_python_trivial_group_refuted.

Theorem C90_python_partitions_refuted : forall n L, integer_partitions n = Ret L ->
  forall k, py_loop (parts_at n) 0 k = if (k <=? length L)%nat then Ret (firstn k L, false) else UB.
Proof. exact py_parts. Qed.
Print Assumptions C90_python_partitions_refuted.

Theorem C90_python_tableaux_refuted : forall lambda L, young_tableaux lambda = Ret L ->
  forall k, py_loop (tabs_at lambda) 0 k = if (k <=? length L)%nat then Ret (firstn k L, false) else UB.
Proof. exact py_tabs. Qed.
Print Assumptions C90_python_tableaux_refuted.

(* list(IntegerPartition(l)): the parts, then past the array *)
Theorem C90_python_rows_refuted : forall lambda k, py_loop (ip_get lambda) 0 k = if (k <=? length lambda)%nat then Ret (firstn k lambda, false) else UB.
Proof. exact py_rows. Qed.
Print Assumptions C90_python_rows_refuted.

(* list(Permutation(p)): __getitem__ is the 1-based call, so the first item is before the array *)
Theorem C90_python_permutation_refuted : forall p k, (1 <= k)%nat -> py_loop (p_call p) 0 k = UB.
Proof. exact py_perm. Qed.
Print Assumptions C90_python_permutation_refuted.

Example C90_example : py_loop (parts_at 4) 0 5 = Ret ([[4];[3;1];[2;2];[2;1;1];[1;1;1;1]], false) /\ py_loop (parts_at 4) 0 6 = UB /\
  py_loop (sn_element 2) 0 2 = Ret ([[1;2];[2;1]], false) /\ py_loop (sn_element 2) 0 3 = UB.
Proof. repeat split; vm_compute; reflexivity. Qed.
