(* Properties C58 and C59: Clebsch-Gordan multiplicities: Sn/SnCGbank.hpp coeff and CGproduct. *)
From Coq Require Import ZArith List Bool Lia Reals Permutation Sorted.
From Verif Require Import Model_Base Model_Part Model_Comb Model_Tab Model_Irrep Model_Type Model_Char Model_CG.
From Verif Require Import Spec_Perm Spec_Part Spec_Tab Spec_Rep Spec_Four Spec_Type Spec_CG.
From Verif Require Import Proof_Base Proof_Part Proof_PartProps Proof_TabProps Proof_Type Proof_Rept Proof_CG.
Import ListNotations.
Open Scope Z_scope.

(* coeff(a,b,c) is the multiplicity of c in the product of a and b; it is the same for every order of the arguments and
   after every history of requests, for any groups *)
Theorem C58_coeff : forall n a b c, 1 <= n -> is_part n a -> is_part n b -> is_part n c -> exists m, cg_mult n a b c m /\
  forall qs a' b' c', Forall legal_cgq qs -> Permutation [a'; b'; c'] [a; b; c] ->
    exists aa s, cgrun (qs ++ [GCoeff a' b' c']) cg0 = Ret (aa ++ [ACoeff m], s).
Proof. exact coeff_statement. Qed.
Print Assumptions C58_coeff.

(* the specification leaves no choice *)
Theorem C58_multiplicity_unique : forall n a b c m m', 1 <= n -> is_part n a -> is_part n b -> is_part n c -> cg_mult n a b c m -> cg_mult n a b c m' -> m = m'.
Proof. intros n a b c m m' Hn Pa Pb Pc H H'. apply cg_mult_kz in H, H'; auto. congruence. Qed.
Print Assumptions C58_multiplicity_unique.

(* partitions of different numbers end the process *)
Theorem C58_mixed_aborts : forall b n1 n2 n3 x y z, is_part n1 x -> is_part n2 y -> is_part n3 z -> ~ (n1 = n2 /\ n1 = n3) -> cg_coeff b x y z = Abort.
Proof. exact coeff_mixed. Qed.
Print Assumptions C58_mixed_aborts.

Example C58_example : is_part 4 [2; 2] /\ is_part 4 [3; 1] /\ is_part 4 [2; 1; 1] /\ Forall legal_cgq [GCoeff [2; 1] [3] [2; 1]; GProd [2; 2] [3; 1]] /\ Permutation [[3; 1]; [2; 2]; [2; 1; 1]] [[2; 2]; [3; 1]; [2; 1; 1]].
Proof.
  assert (is_part 4 [2; 2]) by (apply decb_part; reflexivity). assert (is_part 4 [3; 1]) by (apply decb_part; reflexivity). assert (is_part 3 [2; 1]) by (apply decb_part; reflexivity). assert (is_part 3 [3]) by (apply decb_part; reflexivity).
  split; auto. split; auto. split; [apply decb_part; reflexivity|]. split; [|apply perm_swap]. constructor; [exists 3; split; [lia|auto]|]. constructor; [exists 4; split; [lia|auto]|constructor].
Qed.

(* CGproduct of two irreps holds exactly the irreps that occur, with their multiplicities: the bound on the first row
   loses none.  The answer is the same after every history. *)
Theorem C59_product_is_complete : forall n a b, 1 <= n -> is_part n a -> is_part n b -> exists t, type_of n t /\
  (forall c, is_part n c -> cg_mult n a b c (mult t c)) /\ (forall c, In c (map fst t) <-> is_part n c /\ 0 < mult t c) /\
  forall qs, Forall legal_cgq qs -> exists aa s, cgrun (qs ++ [GProd a b]) cg0 = Ret (aa ++ [AType t], s).
Proof. exact prod_statement. Qed.
Print Assumptions C59_product_is_complete.

(* CGproduct of two types is bilinear *)
Theorem C59_product_of_types : forall n s t, 1 <= n -> type_of n s -> type_of n t -> exists R, type_of n R /\
  (forall c m, is_part n c -> (forall p q, In p s -> In q t -> cg_mult n (fst p) (fst q) c (m p q)) ->
    mult R c = zsum_over s (fun p => zsum_over t (fun q => snd p * snd q * m p q))) /\
  (forall c, In c (map fst R) <-> is_part n c /\ exists p q m, In p s /\ In q t /\ cg_mult n (fst p) (fst q) c m /\ 0 < m) /\
  forall qs, Forall legal_cgq qs -> exists aa st, cgrun (qs ++ [GTypes s t]) cg0 = Ret (aa ++ [AType R], st).
Proof. exact types_statement. Qed.
Print Assumptions C59_product_of_types.

(* the trace of every permutation in the product is the product of its traces *)
Theorem C59_product_trace : forall n a b t qs aa st p x y, 1 <= n -> is_part n a -> is_part n b -> Forall legal_cgq qs ->
  cgrun (qs ++ [GProd a b]) cg0 = Ret (aa ++ [AType t], st) ->
  is_perm n p -> irrep_trace a p x -> irrep_trace b p y -> type_trace t p (x * y)%R.
Proof. exact prod_trace. Qed.
Print Assumptions C59_product_trace.

Theorem C59_types_trace : forall n s t R qs aa st p x y, 1 <= n -> type_of n s -> type_of n t -> Forall legal_cgq qs ->
  cgrun (qs ++ [GTypes s t]) cg0 = Ret (aa ++ [AType R], st) ->
  is_perm n p -> type_trace s p x -> type_trace t p y -> type_trace R p (x * y)%R.
Proof. exact types_trace. Qed.
Print Assumptions C59_types_trace.

(* dimensions multiply *)
Theorem C59_product_dimension : forall n a b t qs aa st ta tb, 1 <= n -> is_part n a -> is_part n b -> Forall legal_cgq qs ->
  cgrun (qs ++ [GProd a b]) cg0 = Ret (aa ++ [AType t], st) -> young_tableaux a = Ret ta -> young_tableaux b = Ret tb ->
  type_dim t (Z.of_nat (length ta) * Z.of_nat (length tb)).
Proof. exact prod_dim. Qed.
Print Assumptions C59_product_dimension.

Theorem C59_types_dimension : forall n s t R qs aa st D D', 1 <= n -> type_of n s -> type_of n t -> Forall legal_cgq qs ->
  cgrun (qs ++ [GTypes s t]) cg0 = Ret (aa ++ [AType R], st) -> type_dim s D -> type_dim t D' -> type_dim R (D * D').
Proof. exact types_dim. Qed.
Print Assumptions C59_types_dimension.

Example C59_example : is_part 4 [2; 2] /\ is_part 4 [3; 1] /\ type_of 4 [([3; 1], 2); ([2; 2], 1)] /\ Forall legal_cgq [GTypes [([3; 1], 2); ([2; 2], 1)] [([2; 2], 5)]] /\
  (exists ts, young_tableaux [3; 1] = Ret ts /\ length ts = 3%nat).
Proof.
  assert (is_part 4 [2; 2]) by (apply decb_part; reflexivity). assert (is_part 4 [3; 1]) by (apply decb_part; reflexivity).
  assert (type_of 4 [([3; 1], 2); ([2; 2], 1)]) as T. { split; [|apply Forall_cons; [cbn; auto|apply Forall_cons; [cbn; auto|apply Forall_nil]]]. apply SSorted_cons; [apply SSorted_cons; [apply SSorted_nil|apply Forall_nil]|]. apply Forall_cons; [|apply Forall_nil]. apply lex_cons. lia. }
  assert (type_of 4 [([2; 2], 5)]) as T'. { split; [|apply Forall_cons; [cbn; auto|apply Forall_nil]]. apply SSorted_cons; [apply SSorted_nil|apply Forall_nil]. }
  split; auto. split; auto. split; auto. split; [constructor; [exists 4; split; [lia|auto]|constructor]|]. eexists. split; [vm_compute; reflexivity|reflexivity].
Qed.
