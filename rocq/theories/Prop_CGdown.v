(* Properties C76 and C77: how restriction and induction of types meet the Clebsch-Gordan product. *)
From Coq Require Import ZArith List Bool Lia Reals Permutation Sorted.
From Verif Require Import Model_Base Model_Part Model_Comb Model_Tab Model_Irrep Model_Type Model_Char Model_CG.
From Verif Require Import Spec_Perm Spec_Part Spec_Tab Spec_Rep Spec_Four Spec_Type Spec_CG.
From Verif Require Import Proof_Base Proof_Part Proof_PartProps Proof_TabProps Proof_Type Proof_Rept Proof_Rept2 Proof_CG Proof_CGdown.
Import ListNotations.
Open Scope Z_scope.

(* the restriction of CGproduct(s,t) is CGproduct of the restrictions: the same type, entry by entry, whatever was
   requested before either call *)
Theorem C76_restriction_of_a_product_of_types : forall n s t s' t', 2 <= n -> type_of n s -> type_of n t -> ty_down s = Ret s' -> ty_down t = Ret t' ->
  exists R R', ty_down R = Ret R' /\
  forall qs, Forall legal_cgq qs ->
    (exists aa st, cgrun (qs ++ [GTypes s t]) cg0 = Ret (aa ++ [AType R], st)) /\
    (exists aa st, cgrun (qs ++ [GTypes s' t']) cg0 = Ret (aa ++ [AType R'], st)).
Proof. exact restrict_types. Qed.
Print Assumptions C76_restriction_of_a_product_of_types.

(* the same for the product of two irreps *)
Theorem C76_restriction_of_a_product : forall n a b s' t', 2 <= n -> is_part n a -> is_part n b -> ty_down1 a = Ret s' -> ty_down1 b = Ret t' ->
  exists R R', ty_down R = Ret R' /\
  forall qs, Forall legal_cgq qs ->
    (exists aa st, cgrun (qs ++ [GProd a b]) cg0 = Ret (aa ++ [AType R], st)) /\
    (exists aa st, cgrun (qs ++ [GTypes s' t']) cg0 = Ret (aa ++ [AType R'], st)).
Proof. exact restrict_irreps. Qed.
Print Assumptions C76_restriction_of_a_product.

Example C76_example : type_of 4 [([3; 1], 2); ([2; 2], 1)] /\ ty_down [([3; 1], 2); ([2; 2], 1)] = Ret [([3], 2); ([2; 1], 3)] /\
  type_of 4 [([2; 1; 1], 1)] /\ ty_down [([2; 1; 1], 1)] = Ret [([2; 1], 1); ([1; 1; 1], 1)] /\ is_part 4 [2; 1; 1] /\ ty_down1 [2; 1; 1] = Ret [([2; 1], 1); ([1; 1; 1], 1)] /\
  Forall legal_cgq [GProd [2; 1] [3]].
Proof.
  assert (is_part 4 [2; 1; 1]) as P by (apply decb_part; reflexivity).
  split; [|split; [reflexivity|split; [apply type_one; auto|split; [reflexivity|split; [auto|split; [reflexivity|]]]]]].
  - split; [|apply Forall_cons; [apply decb_part; reflexivity|apply Forall_cons; [apply decb_part; reflexivity|apply Forall_nil]]]. apply SSorted_cons; [apply SSorted_cons; [apply SSorted_nil|apply Forall_nil]|]. apply Forall_cons; [|apply Forall_nil]. apply lex_cons. lia.
  - apply Forall_cons; [|apply Forall_nil]. exists 3. split; [lia|]. split; apply decb_part; reflexivity.
Qed.

(* inducing CGproduct(s, restriction of t) gives CGproduct(type induced from s, t) *)
Theorem C77_induction_of_a_product : forall n s t s' t', 1 <= n -> type_of n s -> type_of (n + 1) t -> induced_type n s s' -> ty_down t = Ret t' ->
  exists P Q, induced_type n P Q /\
  forall qs, Forall legal_cgq qs ->
    (exists aa st, cgrun (qs ++ [GTypes s t']) cg0 = Ret (aa ++ [AType P], st)) /\
    (exists aa st, cgrun (qs ++ [GTypes s' t]) cg0 = Ret (aa ++ [AType Q], st)).
Proof. exact projection_formula. Qed.
Print Assumptions C77_induction_of_a_product.

Example C77_example : type_of 3 [([2; 1], 2)] /\ (exists s', induced_type 3 [([2; 1], 2)] s' /\ s' = [([3; 1], 2); ([2; 2], 2); ([2; 1; 1], 2)]) /\ type_of (3 + 1) [([2; 1; 1], 1)] /\ ty_down [([2; 1; 1], 1)] = Ret [([2; 1], 1); ([1; 1; 1], 1)].
Proof.
  assert (type_of 3 [([2; 1], 2)]) as T. { split; [|apply Forall_cons; [apply decb_part; reflexivity|apply Forall_nil]]. apply SSorted_cons; [apply SSorted_nil|apply Forall_nil]. }
  split; [exact T|]. split.
  - destruct (induction_object 3 [([2; 1], 2)] T ltac:(lia)) as (r & r' & t' & E1 & _ & E2 & E3 & I & _). exists t'. split; [exact I|].
    assert ((r <- rep_isos [([2; 1], 2)] ;; r' <- rep_induce r ;; rep_type r') = Ret [([3; 1], 2); ([2; 2], 2); ([2; 1; 1], 2)]) as K by reflexivity.
    rewrite E1 in K. cbn [bind] in K. rewrite E2 in K. cbn [bind] in K. rewrite E3 in K. injection K as <-. reflexivity.
  - split; [apply type_one; apply decb_part; reflexivity|reflexivity].
Qed.
