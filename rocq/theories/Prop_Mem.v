(* Properties C61 and C73: copying, assigning and destroying permutations and partitions. *)
From Coq Require Import ZArith List Bool Lia.
From Verif Require Import Model_Base Spec_Mem Model_Mem Proof_Base Proof_Mem Proof_Mem2 Proof_MemProps.
Import ListNotations.
Open Scope Z_scope.

(* Every program of constructions, copies, moves, assignments, entry writes, add/remove, *= and
   destructions that contains no v=v and no v*=v behaves as if each variable held its own entries:
   it gives the same sizes and entries in the end, fails where value semantics has no meaning for
   it, and nowhere else.  In particular a copy is never affected by later changes of the original. *)
Theorem C61_value_semantics : forall h,
  forallb (fun o => negb (self_op o)) h = true ->
  match vexec_all h empty with
  | Ret st => exists s, exec_all h mem0 = Ret s /\
      forall v, match st v with
                | None => o_size v s = UB
                | Some a => o_size v s = Ret (size a) /\
                            forall i, o_at v i s = match entry a i with Some e => Ret e | None => UB end
                end
  | Throw => exec_all h mem0 = Throw
  | Abort => False
  | UB => exec_all h mem0 = UB
  end.
Proof. exact value_semantics. Qed.
Print Assumptions C61_value_semantics.

(* no statement, self operations included, changes a variable it does not name *)
Theorem C61_independent : forall h s o s' v,
  exec_all h mem0 = Ret s -> exec o s = Ret s' -> ~ In v (names o) ->
  o_size v s' = o_size v s /\ forall i, o_at v i s' = o_at v i s.
Proof. exact frame. Qed.
Print Assumptions C61_independent.

(* after any program: each live object's block is allocated and has its size, no two objects share
   a block, and every allocated block belongs to a live object *)
Theorem C61_ownership : forall h s, exec_all h mem0 = Ret s ->
  (forall v o b, vars s v = Some o -> optr o = Some b ->
     exists c, rd (heap s) b = Ret (Some c) /\ zlen c = osz o) /\
  (forall v w o o' b, vars s v = Some o -> vars s w = Some o' -> optr o = Some b -> optr o' = Some b -> v = w) /\
  (forall b c, rd (heap s) b = Ret (Some c) -> exists v o, vars s v = Some o /\ optr o = Some b).
Proof. exact ownership. Qed.
Print Assumptions C61_ownership.

(* hence nothing leaks once all objects are gone, and every object can be destroyed *)
Theorem C61_no_leak : forall h s, exec_all h mem0 = Ret s -> (forall v, o_size v s = UB) ->
  forall b c, rd (heap s) b <> Ret (Some c).
Proof. exact no_leak. Qed.
Print Assumptions C61_no_leak.
Theorem C61_destroyable : forall h s v n, exec_all h mem0 = Ret s -> o_size v s = Ret n ->
  exists s', exec (Destroy v) s = Ret s' /\ o_size v s' = UB.
Proof. exact destroyable. Qed.
Print Assumptions C61_destroyable.

(* "x=x leaves x as it is" is false of both classes: the entries are thrown away and the fresh,
   unwritten block is copied onto itself.  This happens in every reachable state, for every object
   with at least one entry. *)
Theorem C61_self_assignment_refuted : forall h s v n,
  exec_all h mem0 = Ret s -> o_size v s = Ret n -> 0 < n ->
  exec (IAssign v v) s = UB /\ exec (PAssign v v) s = UB.
Proof. exact self_assign_ub. Qed.
Print Assumptions C61_self_assignment_refuted.

(* what value semantics asks of the same statement *)
Example C61_self_assignment_example :
  let h := [NewList 1 [3; 1; 2]; PAssign 1 1] in
  (exists st, vexec_all h empty = Ret st /\ st 1 = Some (full [3; 1; 2])) /\ exec_all h mem0 = UB.
Proof. split; [eexists; split; reflexivity|vm_compute; reflexivity]. Qed.

(* a program with copies, moves, growth and shrinkage, and destruction of everything *)
Example C61_program_example :
  let h := [NewList 1 [3; 1]; Copy 2 1; Add 1 2 5; SetAt 2 0 7; NewDefault 3; IAssign 3 1; Move 4 1;
            Remove 3 2 5; PAssign 1 2; MoveAssign 2 4] in
  forallb (fun o => negb (self_op o)) h = true /\
  (exists st, vexec_all h empty = Ret st /\ st 1 = Some (full [7; 1]) /\ st 2 = Some (full [3; 1; 5]) /\
              st 3 = Some (full [3; 1]) /\ st 4 = Some (Gone 3)) /\
  (exists s, exec_all (h ++ [Destroy 1; Destroy 2; Destroy 3; Destroy 4]) mem0 = Ret s /\
             heap s = repeat None 7).
Proof.
  split; [reflexivity|]. split.
  - eexists. split; [reflexivity|]. repeat split.
  - eexists. split; [vm_compute; reflexivity|]. reflexivity.
Qed.

(* C73: v*=x replaces every entry e of v by x(e), whenever v and x are different objects *)
Theorem C73_times_assign : forall h s v x t y, exec_all h mem0 = Ret s -> v <> x ->
  o_size v s = Ret (zlen t) -> (forall i, 0 <= i < zlen t -> o_at v i s = Ret (znth t i 0)) ->
  o_size x s = Ret (zlen y) -> (forall i, 0 <= i < zlen y -> o_at x i s = Ret (znth y i 0)) ->
  (forall a, In a t -> 1 <= a <= zlen y) ->
  exists s', exec (TimesEq v x) s = Ret s' /\ o_size v s' = Ret (zlen t) /\
    forall i, 0 <= i < zlen t -> o_at v i s' = Ret (znth y (znth t i 0 - 1) 0).
Proof. exact times_assign. Qed.
Print Assumptions C73_times_assign.

(* v*=v is false of the code: entries already replaced are read again.  The result need not even be
   a permutation: [2 3 1] becomes [3 1 3]. *)
Theorem C73_times_assign_self_refuted :
  exists s s', exec_all [NewList 1 [2; 3; 1]] mem0 = Ret s /\ exec (TimesEq 1 1) s = Ret s' /\
    (exists st, vexec_all [NewList 1 [2; 3; 1]; TimesEq 1 1] empty = Ret st /\ st 1 = Some (full [3; 1; 2])) /\
    o_at 1 0 s' = Ret 3 /\ o_at 1 1 s' = Ret 1 /\ o_at 1 2 s' = Ret 3.
Proof.
  eexists. eexists. split; [vm_compute; reflexivity|]. split; [vm_compute; reflexivity|].
  split; [eexists; split; reflexivity|]. vm_compute. repeat split.
Qed.
Print Assumptions C73_times_assign_self_refuted.

Example C73_example : exists s s', exec_all [NewList 1 [2; 3; 1]; NewList 2 [3; 1; 2]] mem0 = Ret s /\
  exec (TimesEq 1 2) s = Ret s' /\ o_at 1 0 s' = Ret 1 /\ o_at 1 1 s' = Ret 2 /\ o_at 1 2 s' = Ret 3.
Proof.
  eexists. eexists. split; [vm_compute; reflexivity|]. split; [vm_compute; reflexivity|]. vm_compute. repeat split.
Qed.
