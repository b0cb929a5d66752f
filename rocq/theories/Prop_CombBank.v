(* C23, C24: the combinatorial bank. *)
From Coq Require Import ZArith List Bool.
From Verif Require Import Model_Base Model_Part Model_Comb Model_Tab Model_CombBank Spec_Part Spec_CombBank Proof_CombBankProps.
Import ListNotations.
Open Scope Z_scope.

(* every partition once; and when all parents of a later partition q are parents of p, q comes before p *)
Theorem C23_restriction_order : forall n, 1 <= n ->
  exists RO b, bank_ro n [] = Ret (RO, b) /\ NoDup RO /\ (forall p, In p RO <-> is_part n p) /\
    (forall pre p post, RO = pre ++ p :: post -> forall q, is_part n q -> lex_greater p q ->
       (forall mu, is_part (n - 1) mu -> contained mu q -> contained mu p) -> In q pre).
Proof. exact ro_complete. Qed.
Print Assumptions C23_restriction_order.

Example C23_example : (r <- bank_ro 4 [] ;; Ret (fst r)) = Ret [[4];[2;2];[3;1];[1;1;1;1];[2;1;1]].
Proof. reflexivity. Qed.

(* any history of queries succeeds, and the next answer is the one of a fresh bank *)
Theorem C24_history_independent : forall qs q, Forall legal_query qs -> legal_query q ->
  exists answers b a b' b0, crun qs [] = Ret (answers, b) /\ cstep q b = Ret (a, b') /\ cstep q [] = Ret (a, b0).
Proof. exact history_independent. Qed.
Print Assumptions C24_history_independent.

(* asking again, however much later, gives the same answer out of what is stored: nothing changes *)
Theorem C24_repeated_query_is_served_from_store : forall qs1 q qs2, Forall legal_query qs1 -> legal_query q -> Forall legal_query qs2 ->
  exists a b1 b2 as1 as2, crun (qs1 ++ [q]) [] = Ret (as1 ++ [a], b1) /\ crun qs2 b1 = Ret (as2, b2) /\ cstep q b2 = Ret (a, b2).
Proof. exact history_repeat. Qed.
Print Assumptions C24_repeated_query_is_served_from_store.

(* the bank's answers are the lists of C12 and C19 *)
Theorem C24_answers_are_the_lists : forall n lambda, 1 <= n -> is_part n lambda ->
  exists L T b b', cstep (QParts n) [] = Ret (AParts L, b) /\ integer_partitions n = Ret L /\
    cstep (QTabs lambda) [] = Ret (ATabs T, b') /\ young_tableaux lambda = Ret T.
Proof. exact bank_answers. Qed.
Print Assumptions C24_answers_are_the_lists.

Example C24_example : legal_query (QRO 4) /\ legal_query (QTabs [2;1]) /\
  (r <- crun [QTabs [2;1]; QRO 3; QParts 2; QTabs [2;1]] [] ;; Ret (fst r)) =
    Ret [ATabs [[[1;2];[3]]; [[1;3];[2]]]; AParts [[3];[1;1;1];[2;1]]; AParts [[2];[1;1]]; ATabs [[[1;2];[3]]; [[1;3];[2]]]].
Proof.
  split; [cbn; discriminate|]. split; [|reflexivity]. exists 3. split; [discriminate|]. split; [|split; [|reflexivity]].
  - intros x [<-|[<-|[]]]; discriminate.
  - repeat constructor; discriminate.
Qed.
