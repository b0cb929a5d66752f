(* Properties C48, C49 and C50: types of representations, induction and restriction, the bank of representations:
   Sn/SnType.hpp, Sn/SnRepresentationObj.hpp, Sn/SnRepresentationBank.hpp. *)
From Coq Require Import ZArith List Bool Lia Sorting.Sorted Reals.
From Verif Require Import Model_Base Model_Part Model_Comb Model_Tab Model_Type.
From Verif Require Import Spec_Part Spec_Tab Spec_Type.
From Verif Require Import Proof_Base Proof_Part Proof_PartProps Proof_TabProps Proof_Map Proof_Type Proof_Rept Proof_Rept2 Proof_Rbank.
Import ListNotations.
Open Scope Z_scope.

(* every history of set, add, add of a type and read: the reads answer what a total map that starts at 0 answers *)
Theorem C48_histories : forall n os, Forall (legal_top n) os ->
  exists t, trun os [] = Ret (sanswers os (fun _ => 0), t) /\ type_of n t /\ (forall l, In l (map fst t) <-> In l (flat_map mentions os)) /\
    forall l, mult t l = smeaning os (fun _ => 0) l.
Proof. exact type_history. Qed.
Print Assumptions C48_histories.

(* two histories with the same meaning that mention the same partitions end with the same type *)
Theorem C48_order_irrelevant : forall n os os', Forall (legal_top n) os -> Forall (legal_top n) os' ->
  (forall l, In l (flat_map mentions os) <-> In l (flat_map mentions os')) ->
  (forall l, smeaning os (fun _ => 0) l = smeaning os' (fun _ => 0) l) ->
  exists a a' t, trun os [] = Ret (a, t) /\ trun os' [] = Ret (a', t).
Proof. exact order_irrelevant. Qed.
Print Assumptions C48_order_irrelevant.

Theorem C48_cat : forall n v, Forall (type_of n) v ->
  exists t, ty_cat v = Ret t /\ type_of n t /\ (forall l, In l (map fst t) <-> exists x, In x v /\ In l (map fst x)) /\
    forall l, mult t l = zsum_over v (fun x => mult x l).
Proof. exact cat_ok. Qed.
Print Assumptions C48_cat.

(* a partition of another n ends the process as soon as the type is not empty *)
Theorem C48_mixed_aborts : forall n m t l, type_of n t -> t <> [] -> is_part m l -> n <> m ->
  forall v, ty_call t l = Abort /\ ty_set t l v = Abort /\ ty_add t l v = Abort.
Proof. exact type_mixed. Qed.
Print Assumptions C48_mixed_aborts.

(* reading is not pure: the const operator() inserts the partition, and the types before and after are different keys *)
Theorem C48_read_is_pure_refuted : ~ (forall n t l v t', type_of n t -> is_part n l -> ty_call t l = Ret (v, t') -> t' = t).
Proof.
  intros H. assert (E : ty_call [([2], 1)] [1; 1] = Ret (0, [([2], 1); ([1; 1], 0)])) by reflexivity.
  assert (T : type_of 2 [([2], 1)]) by (split; [apply SSorted_cons; [apply SSorted_nil|apply Forall_nil]|apply Forall_cons; [apply decb_part; reflexivity|apply Forall_nil]]).
  specialize (H 2 _ [1; 1] _ _ T ltac:(apply decb_part; reflexivity) E). discriminate.
Qed.
Print Assumptions C48_read_is_pure_refuted.

(* {(2,1):2} + 3 * {(2,1):1,(3):5}, reads of (3), (2,1), (1,1,1) *)
Example C48_example : trun [TAdd [2; 1] 2; TAddType [([3], 5); ([2; 1], 1)] 3; TRead [3]; TRead [2; 1]; TRead [1; 1; 1]] [] =
  Ret ([None; None; Some 15; Some 5; Some 0], [([3], 15); ([2; 1], 5); ([1; 1; 1], 0)]).
Proof. reflexivity. Qed.
Example C48_example_legal : Forall (legal_top 3) [TAdd [2; 1] 2; TAddType [([3], 5)] 3; TRead [1; 1; 1]].
Proof.
  apply Forall_cons; [apply decb_part; reflexivity|]. apply Forall_cons; [|apply Forall_cons; [apply decb_part; reflexivity|apply Forall_nil]].
  split; [apply SSorted_cons; [apply SSorted_nil|apply Forall_nil]|apply Forall_cons; [apply decb_part; reflexivity|apply Forall_nil]].
Qed.

(* restriction from S_n to S_{n-1}: mu occurs as often as all the partitions above it together *)
Theorem C49_restriction : forall n t, type_of n t -> 1 <= n -> exists R, ty_down t = Ret R /\ type_of (n - 1) R /\
  (forall mu, In mu (map fst R) <-> is_part (n - 1) mu /\ exists l, In l (map fst t) /\ contained mu l) /\
  forall mu L, is_part (n - 1) mu -> NoDup L -> (forall l, In l L <-> is_part n l /\ contained mu l) -> mult R mu = zsum_over L (mult t).
Proof. exact down_type. Qed.
Print Assumptions C49_restriction.

(* the restriction of a single irrep agrees with that of its type *)
Theorem C49_restriction_of_irrep : forall n l, is_part n l -> 1 <= n -> exists R, ty_down1 l = Ret R /\ ty_down [(l, 1)] = Ret R.
Proof. exact down_single. Qed.
Print Assumptions C49_restriction_of_irrep.

Theorem C49_restriction_dimension : forall n t D, type_of n t -> 2 <= n -> type_dim t D -> exists R, ty_down t = Ret R /\ type_dim R D.
Proof. exact down_dim. Qed.
Print Assumptions C49_restriction_dimension.

(* the object made for a type has that type; the one induced from it has the induced type, and the sub-isotypics listed
   for a partition are the old ones below it, in their order *)
Theorem C49_induction : forall n t, type_of n t -> 1 <= n -> exists r r' t', rep_isos t = Ret r /\ rep_type r = Ret t /\
  rep_induce r = Ret r' /\ rep_type r' = Ret t' /\ induced_type n t t' /\
  forall x i, In (x, i) r' -> is_lambda i = x /\ is_m i = mult t' x /\ exists keep, is_subs i = filter keep (map fst t) /\ forall l, In l (map fst t) -> (keep l = true <-> contained l x).
Proof. exact induction_object. Qed.
Print Assumptions C49_induction.

Theorem C49_induction_dimension : forall n t t' D, type_of n t -> 1 <= n -> induced_type n t t' -> type_dim t D -> type_dim t' ((n + 1) * D).
Proof. exact induced_dim. Qed.
Print Assumptions C49_induction_dimension.

(* the specification of the induced type leaves no choice *)
Theorem C49_induced_unique : forall n t t1 t2, type_of n t -> 1 <= n -> induced_type n t t1 -> induced_type n t t2 -> t1 = t2.
Proof. exact induced_unique. Qed.
Print Assumptions C49_induced_unique.

Theorem C49_frobenius : forall n s s' t t' L L', 1 <= n -> type_of n s -> induced_type n s s' -> type_of (n + 1) t -> ty_down t = Ret t' ->
  NoDup L -> (forall l, In l L <-> is_part n l) -> NoDup L' -> (forall l, In l L' <-> is_part (n + 1) l) ->
  zsum_over L' (fun x => mult s' x * mult t x) = zsum_over L (fun l => mult s l * mult t' l).
Proof. exact frobenius. Qed.
Print Assumptions C49_frobenius.

Example C49_example : (r <- rep_isos [([3], 1); ([2; 1], 2)] ;; r' <- rep_induce r ;; rep_type r') = Ret [([4], 1); ([3; 1], 3); ([2; 2], 2); ([2; 1; 1], 2)] /\
  ty_down [([4], 1); ([3; 1], 3); ([2; 2], 2); ([2; 1; 1], 2)] = Ret [([3], 4); ([2; 1], 7); ([1; 1; 1], 2)].
Proof. split; reflexivity. Qed.
Example C49_example_hyp : type_of 3 [([3], 1); ([2; 1], 2)].
Proof.
  split; [|apply Forall_cons; [apply decb_part; reflexivity|apply Forall_cons; [apply decb_part; reflexivity|apply Forall_nil]]].
  apply SSorted_cons; [apply SSorted_cons; [apply SSorted_nil|apply Forall_nil]|]. apply Forall_cons; [|apply Forall_nil]. apply lex_cons. lia.
Qed.

(* one group: equal types get the same object, different types different ones, and the object has the type asked for,
   also after everything that was requested later *)
Theorem C50_one_group : forall n os aa b, 1 <= n -> Forall (legal_rop n) os -> rrun os (mkRbank [] []) = Ret (aa, b) ->
  (forall tau a, In (RGet tau, a) (combine os aa) -> type_at b a tau) /\
  (forall tau a tau' a', In (RGet tau, a) (combine os aa) -> In (RGet tau', a') (combine os aa) -> (a = a' <-> tau = tau')).
Proof. exact bank_gets. Qed.
Print Assumptions C50_one_group.

(* induced objects: one per object, of the induced type, new, and leading back to where they came from *)
Theorem C50_induced_objects : forall n os aa b, 1 <= n -> Forall (legal_rop n) os -> rrun os (mkRbank [] []) = Ret (aa, b) ->
  (forall c a, In (RInd c, a) (combine os aa) -> exists m t t', 1 <= m /\ type_at b c t /\ type_of m t /\ type_at b a t' /\ induced_type m t t') /\
  (forall c a c' a', In (RInd c, a) (combine os aa) -> In (RInd c', a') (combine os aa) -> (a = a' <-> c = c')) /\
  (forall c a tau a', In (RInd c, a) (combine os aa) -> In (RGet tau, a') (combine os aa) -> a <> a') /\
  (forall c a c', In (RInd c, a) (combine os aa) -> In (RRes a, c') (combine os aa) -> c' = c).
Proof. exact bank_inds. Qed.
Print Assumptions C50_induced_objects.

(* which requests are answered *)
Theorem C50_answered : forall n os aa b, 1 <= n -> Forall (legal_rop n) os -> rrun os (mkRbank [] []) = Ret (aa, b) ->
  (forall tau, type_of n tau -> exists r, rstep (RGet tau) b = Ret r) /\
  (forall a, In a aa -> exists r, rstep (RInd a) b = Ret r) /\
  (forall c a, In (RInd c, a) (combine os aa) -> rstep (RRes a) b = Ret (c, b)) /\
  (forall tau a, In (RGet tau, a) (combine os aa) -> rstep (RRes a) b = Abort).
Proof. exact bank_answers. Qed.
Print Assumptions C50_answered.

(* after any request for a representation of S_n, a request for one of another S_m ends the process *)
Theorem C50_any_mixture_refuted : forall n m os aa b t t', 1 <= n -> Forall (legal_rop n) os -> rrun os (mkRbank [] []) = Ret (aa, b) ->
  In (RGet t) os -> t <> [] -> type_of m t' -> t' <> [] -> n <> m -> rstep (RGet t') b = Abort.
Proof. exact bank_mixed. Qed.
Print Assumptions C50_any_mixture_refuted.

Example C50_example : exists b, rrun [RGet [([2; 1], 1)]; RInd 0; RGet [([3], 1)]; RGet [([2; 1], 1)]; RInd 0; RRes 1; RInd 1] (mkRbank [] []) = Ret ([0; 1; 2; 0; 1; 0; 3]%nat, b).
Proof. eexists. vm_compute. reflexivity. Qed.
Example C50_example_abort : rrun [RGet [([2; 1], 1)]; RGet [([2], 1)]] (mkRbank [] []) = Abort.
Proof. reflexivity. Qed.
(* reading an absent multiplicity changes the key *)
Example C50_example_read : exists b, rrun [RGet [([2], 1)]; RGet [([2], 1); ([1; 1], 0)]] (mkRbank [] []) = Ret ([0; 1]%nat, b).
Proof. eexists. vm_compute. reflexivity. Qed.
