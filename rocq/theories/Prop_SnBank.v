(* C25-C28, C64: the group bank and the caches of the group objects. *)
From Coq Require Import ZArith List Bool.
From Verif Require Import Model_Base Model_Sn Model_Part Model_Comb Model_Tab Model_SnBank Spec_Part Spec_SnBank Proof_SnBankProps Proof_SnBank3.
Import ListNotations.
Open Scope Z_scope.

(* whatever was asked before and in between, get_Sn(n) gives one and the same object *)
Theorem C25_same_group_object : forall qs1 qs2 n, Forall legal_call qs1 -> Forall legal_call qs2 -> 1 <= n ->
  exists as1 s1 p s2 as2 s3, srun qs1 ss0 = Ret (as1, s1) /\ sstep (SGroup n) s1 = Ret (SPtr p, s2) /\
    srun qs2 s2 = Ret (as2, s3) /\ sstep (SGroup n) s3 = Ret (SPtr p, s3).
Proof. exact group_history. Qed.
Print Assumptions C25_same_group_object.

(* it is the object for n, of order n!, and its predecessor pointer is the object for n-1 *)
Theorem C25_right_group_object : forall qs n as1 s1 p s2, Forall legal_call qs -> 1 <= n ->
  srun qs ss0 = Ret (as1, s1) -> sstep (SGroup n) s1 = Ret (SPtr p, s2) ->
  exists o, nth_error (ss_objs s2) (Z.to_nat p) = Some o /\ sn_n o = n /\ sn_order o = zfact n /\
    (n = 1 -> sn_prev o = None) /\ (1 < n -> exists p', sn_prev o = Some p' /\ sstep (SGroup (n - 1)) s2 = Ret (SPtr p', s2)).
Proof. exact group_object. Qed.
Print Assumptions C25_right_group_object.

Theorem C25_group_zero_undefined : forall s, sstep (SGroup 0) s = UB.
Proof. exact group_zero. Qed.
Print Assumptions C25_group_zero_undefined.

Theorem C25_group_negative_throws : forall n s, n < 0 -> sstep (SGroup n) s = Throw.
Proof. exact group_negative. Qed.
Print Assumptions C25_group_negative_throws.

Example C25_example :
  (r <- srun [SGroup 3; SGroup 5; SIrrep [2;1]; SGroup 2; SGroup 3] ss0 ;; Ret (fst r)) =
  Ret [SPtr 2; SPtr 4; SPtr 0; SPtr 1; SPtr 2].
Proof. vm_compute; reflexivity. Qed.

(* irreps[i] depends on what was asked before: position 0 of S_3 is [2,1] after a request for it *)
Theorem C26_numbering_depends_on_history_refuted :
  exists qs s l p s', Forall legal_call qs /\ srun qs ss0 = Ret (l, s) /\ sstep (SIrrepAt 3 0) s = Ret (SPtr p, s') /\
    at_lambda s' p [2;1] /\ integer_partitions 3 = Ret [[3];[2;1];[1;1;1]].
Proof.
  exists [SIrrep [2;1]].
  let r := eval vm_compute in (srun [SIrrep [2;1]] ss0) in
  match r with Ret (?l, ?s) =>
    exists s, l; let r' := eval vm_compute in (sstep (SIrrepAt 3 0) s) in match r' with Ret (SPtr ?p, ?s') => exists p, s' end
  end.
  split; [|split; [vm_compute; reflexivity|split; [vm_compute; reflexivity|split; [|vm_compute; reflexivity]]]].
  - constructor; [|constructor]. exists 3. split; [discriminate|]. split; [|split; [|reflexivity]].
    + intros x [<-|[<-|[]]]; discriminate.
    + repeat constructor; discriminate.
  - exists [[[1;2];[3]]; [[1;3];[2]]]. split; vm_compute; reflexivity.
Qed.
Print Assumptions C26_numbering_depends_on_history_refuted.

(* when no irrep of S_n was asked for before, irreps[i] is the i-th partition of the listing *)
Theorem C26_numbering_on_first_use : forall qs n L i, Forall legal_call qs -> 1 <= n -> (forall q, In q qs -> ~ irrep_call n q) ->
  integer_partitions n = Ret L -> 0 <= i < Z.of_nat (length L) ->
  exists as1 s1 p s2, srun qs ss0 = Ret (as1, s1) /\ sstep (SIrrepAt n i) s1 = Ret (SPtr p, s2) /\ at_lambda s2 p (nth (Z.to_nat i) L []).
Proof. exact irreps_fresh_order. Qed.
Print Assumptions C26_numbering_on_first_use.

(* in every case the positions enumerate all partitions, each once, and the numbering then stays *)
Theorem C26_numbering_is_an_enumeration : forall qs1 qs2 n, Forall legal_call qs1 -> Forall legal_call qs2 -> 1 <= n ->
  exists as1 s1 ps s2 as2 s3 ls, srun qs1 ss0 = Ret (as1, s1) /\ sstep (SAll n) s1 = Ret (SPtrs ps, s2) /\ srun qs2 s2 = Ret (as2, s3) /\
    NoDup ls /\ (forall p, In p ls <-> is_part n p) /\ Forall2 (at_lambda s3) ps ls /\
    forall i, 0 <= i < Z.of_nat (length ps) -> exists s4, sstep (SIrrepAt n i) s3 = Ret (SPtr (nth (Z.to_nat i) ps 0), s4).
Proof. exact irreps_enumerate. Qed.
Print Assumptions C26_numbering_is_an_enumeration.

Theorem C27_one_irrep_object_per_partition : forall qs1 qs2 n lambda, Forall legal_call qs1 -> Forall legal_call qs2 -> 1 <= n -> is_part n lambda ->
  exists as1 s1 p s2 as2 s3 s4 s5, srun qs1 ss0 = Ret (as1, s1) /\ sstep (SIrrep lambda) s1 = Ret (SPtr p, s2) /\ at_lambda s2 p lambda /\
    srun qs2 s2 = Ret (as2, s3) /\ at_lambda s3 p lambda /\ sstep (SIrrep lambda) s3 = Ret (SPtr p, s4) /\ sstep (SIrrepOf n lambda) s3 = Ret (SPtr p, s5).
Proof. exact irrep_history. Qed.
Print Assumptions C27_one_irrep_object_per_partition.

(* after every history all_irreps() returns different objects, as many as nirreps() and nchars() say (Sn.hpp 148-150 and
   169-171: both return ncclasses()) *)
Theorem C27_as_many_irreps_as_classes : forall qs n, Forall legal_call qs -> 1 <= n -> exists as1 s ps s' s'', srun qs ss0 = Ret (as1, s) /\
  sstep (SAll n) s = Ret (SPtrs ps, s') /\ NoDup ps /\ sstep (SNcc n) s = Ret (SInt (Z.of_nat (length ps)), s'').
Proof. exact as_many. Qed.
Print Assumptions C27_as_many_irreps_as_classes.

(* Sn(4).irrep({2,1}) as the first request is accepted, and every later request for an irrep of S_4 ends the process *)
Theorem C27_foreign_partition_refuted :
  exists p s, sstep (SIrrepOf 4 [2;1]) ss0 = Ret (SPtr p, s) /\ sstep (SIrrepOf 4 [3;1]) s = Abort /\ sstep (SIrrep [2;2]) s = Abort /\ sstep (SAll 4) s = Abort.
Proof.
  let r := eval vm_compute in (sstep (SIrrepOf 4 [2;1]) ss0) in match r with Ret (SPtr ?p, ?s) => exists p, s end.
  split; [|split; [|split]]; vm_compute; reflexivity.
Qed.
Print Assumptions C27_foreign_partition_refuted.

Example C27_example : legal_call (SIrrepOf 3 [2;1]) /\
  (r <- srun [SIrrep [2;1]; SIrrep [3]; SAll 3; SIrrepOf 3 [2;1]; SIrrep [1;1;1]] ss0 ;; Ret (fst r)) =
  Ret [SPtr 0; SPtr 1; SPtrs [0;1;2]; SPtr 0; SPtr 2].
Proof.
  split; [|vm_compute; reflexivity]. split; [discriminate|]. split; [|split; [|reflexivity]].
  - intros x [<-|[<-|[]]]; discriminate.
  - repeat constructor; discriminate.
Qed.

(* the classes are the partitions of n in listing order, and the two numberings are inverse, after any history *)
Theorem C28_class_numbering : forall qs n L, Forall legal_call qs -> 1 <= n -> integer_partitions n = Ret L ->
  exists as1 s, srun qs ss0 = Ret (as1, s) /\
    (exists s', sstep (SNcc n) s = Ret (SInt (Z.of_nat (length L)), s')) /\
    (forall i, 0 <= i < Z.of_nat (length L) -> exists s', sstep (SCclass n i) s = Ret (SPart (nth (Z.to_nat i) L []), s')) /\
    (forall i, 0 <= i < Z.of_nat (length L) -> exists s', sstep (SCindex n (nth (Z.to_nat i) L [])) s = Ret (SInt i, s')) /\
    (forall mu, is_part n mu -> exists i s', 0 <= i < Z.of_nat (length L) /\ nth (Z.to_nat i) L [] = mu /\ sstep (SCindex n mu) s = Ret (SInt i, s')) /\
    (forall mu, is_part n mu -> exists s', sstep (SCclassOf n mu) s = Ret (SPart mu, s')).
Proof. exact cclass_history. Qed.
Print Assumptions C28_class_numbering.

Theorem C28_foreign_size_aborts : forall qs n as1 s lambda, Forall legal_call qs -> 1 <= n -> srun qs ss0 = Ret (as1, s) ->
  zsum lambda <> n -> sstep (SCindex n lambda) s = Abort.
Proof. exact cclass_foreign. Qed.
Print Assumptions C28_foreign_size_aborts.

(* an array of the right size that is not a partition gets the number of the class of n-cycles *)
Theorem C28_unsorted_array_refuted : exists s s', sstep (SCindex 3 [1;2]) ss0 = Ret (SInt 0, s) /\ sstep (SCclassOf 3 [1;2]) ss0 = Ret (SPart [3], s').
Proof.
  let r := eval vm_compute in (sstep (SCindex 3 [1;2]) ss0) in match r with Ret (_, ?s) => exists s end.
  let r := eval vm_compute in (sstep (SCclassOf 3 [1;2]) ss0) in match r with Ret (_, ?s) => exists s end.
  split; vm_compute; reflexivity.
Qed.
Print Assumptions C28_unsorted_array_refuted.

Example C28_example :
  (r <- srun [SCindex 4 [2;2]; SCindex 4 [1;3]; SCclass 4 2; SNcc 4; SCindex 4 [1;1;1;1]; SCclassOf 4 [2;1;1]] ss0 ;; Ret (fst r)) =
  Ret [SInt 2; SInt 0; SPart [2;2]; SInt 5; SInt 4; SPart [2;1;1]].
Proof. vm_compute; reflexivity. Qed.

Theorem C64_one_quotient_object : forall qs1 qs2 n m, Forall legal_call qs1 -> Forall legal_call qs2 -> 1 <= n ->
  exists as1 s1 p s2 as2 s3 s4, srun qs1 ss0 = Ret (as1, s1) /\ sstep (SOver n m) s1 = Ret (SPtr p, s2) /\ nth_error (ss_quo s2) (Z.to_nat p) = Some (n, m) /\
    srun qs2 s2 = Ret (as2, s3) /\ nth_error (ss_quo s3) (Z.to_nat p) = Some (n, m) /\ sstep (SOver n m) s3 = Ret (SPtr p, s4).
Proof. exact over_history. Qed.
Print Assumptions C64_one_quotient_object.

Example C64_example : (r <- srun [SOver 4 2; SOver 4 3; SOver 3 2; SOver 4 2] ss0 ;; Ret (fst r)) = Ret [SPtr 0; SPtr 1; SPtr 2; SPtr 0].
Proof. vm_compute; reflexivity. Qed.
