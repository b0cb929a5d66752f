(* Property C78: the Clebsch-Gordan product of vectors.  F is the table of numbers in the factors; the theorems hold for
   every table unless they say otherwise. *)
From Coq Require Import ZArith List Bool Lia Reals Lra.
From Verif Require Import Model_Base Model_Part Model_Comb Model_Tab Model_Irrep Model_Type Model_FFT Model_Vec Model_Char Model_CG Model_CGvec.
From Verif Require Import Spec_Perm Spec_Part Spec_Tab Spec_Rep Spec_Four Spec_Type Spec_FFT Spec_Vec Spec_CG Spec_CGvec.
From Verif Require Import Proof_Perm Proof_Part Proof_TabProps Proof_Type Proof_Vec2 Proof_CGvec5 Proof_CGvec6 Proof_CGvec7 Proof_CGvec8.
Import ListNotations.
Open Scope Z_scope.

(* the product of two vectors with single columns is a vector of the product type, the same one after every history *)
Theorem C78_product_of_vectors : forall F n x y tx ty, 1 <= n -> one_columns n x -> one_columns n y -> sv_type x = Ret tx -> sv_type y = Ret ty ->
  exists T R, (forall qs, Forall legal_cgq qs -> exists aa st, cgrun (qs ++ [GTypes tx ty]) cg0 = Ret (aa ++ [AType T], st)) /\ vec_of T R /\
  forall qs, Forall legal_cvq qs -> exists aa st R', cvrun F (qs ++ [CVec x y]) cg0 = Ret (aa ++ [RVec R'], st) /\ Forall2 same_part R R'.
Proof. exact vectors_product. Qed.
Print Assumptions C78_product_of_vectors.

(* the product of two parts is the product of the vectors that have only these parts *)
Theorem C78_product_of_parts : forall F n x y qs, 1 <= n -> one_columns n [x] -> one_columns n [y] -> Forall legal_cvq qs ->
  exists aa st R R', cvrun F (qs ++ [CPart x y]) cg0 = Ret (aa ++ [RVec R], st) /\ product_is F [x] [y] R' /\ Forall2 same_part R R'.
Proof. exact parts_product. Qed.
Print Assumptions C78_product_of_parts.

Theorem C78_linear_in_the_first : forall F n s x x' z y R R' S, 1 <= n -> one_columns n x -> one_columns n x' -> one_columns n y -> combination s x x' z ->
  product_is F x y R -> product_is F x' y R' -> product_is F z y S -> combination s R R' S.
Proof. exact bilinear_l. Qed.
Print Assumptions C78_linear_in_the_first.

Theorem C78_linear_in_the_second : forall F n s x y y' z R R' S, 1 <= n -> one_columns n x -> one_columns n y -> one_columns n y' -> combination s y y' z ->
  product_is F x y R -> product_is F x y' R' -> product_is F x z S -> combination s R R' S.
Proof. exact bilinear_r. Qed.
Print Assumptions C78_linear_in_the_second.

(* with orthogonal factors, inner products of products are products of inner products: nothing is lost *)
Theorem C78_inner_product : forall F n x y x' y' R R', 1 <= n -> orthogonal_factors F -> one_columns n x -> one_columns n y -> alike x x' -> alike y y' ->
  product_is F x y R -> product_is F x' y' R' -> vec_dot R R' = (vec_dot x x' * vec_dot y y')%R.
Proof. exact inner_product. Qed.
Print Assumptions C78_inner_product.

(* if the products for S_(n-1) commute with S_(n-1), those for S_n commute with the permutations that fix n *)
Theorem C78_commutes_with_the_smaller_group : forall F n, 2 <= n -> products_commute F (n - 1) (is_perm (n - 1)) -> products_commute F n (fun p => exists q, is_perm (n - 1) q /\ p = q ++ [n]).
Proof. exact commutes_smaller. Qed.
Print Assumptions C78_commutes_with_the_smaller_group.

(* for S_2 the hypothesis holds, for every table of factors *)
Theorem C78_commutes_for_S2 : forall F, products_commute F 2 (is_perm 2).
Proof. exact commutes_2. Qed.
Print Assumptions C78_commutes_for_S2.

(* the product of parts with several columns, which the SnPart interface allows, is not defined: the factors do not have
   the size of the matrices they are multiplied with.  The claim "the product of any two parts exists" is false. *)
Theorem C78_several_columns_refuted : forall F n l1 l2 m1 m2 x y qs, 1 <= n -> is_part n l1 -> is_part n l2 -> part_of l1 m1 x -> part_of l2 m2 y -> 1 <= m1 -> 1 <= m2 -> m1 * m2 <> 1 ->
  Forall legal_cvq qs -> cvrun F (qs ++ [CPart x y]) cg0 = UB.
Proof. exact several_columns_all. Qed.
Print Assumptions C78_several_columns_refuted.

(* the same for vectors, here with the first parts *)
Theorem C78_several_columns_vectors_refuted : forall F n x y p q qs, 2 <= n -> (forall P, In P (p :: x) -> exists l m, is_part n l /\ part_of l m P) -> (forall P, In P (q :: y) -> exists l m, is_part n l /\ part_of l m P) ->
  NoDup (map (fun P => io_lambda (sp_irr P)) (p :: x)) -> NoDup (map (fun P => io_lambda (sp_irr P)) (q :: y)) -> 1 <= m_n1 (sp_mat p) -> 1 <= m_n1 (sp_mat q) -> m_n1 (sp_mat p) * m_n1 (sp_mat q) <> 1 ->
  Forall legal_cvq qs -> cvrun F (qs ++ [CVec (p :: x) (q :: y)]) cg0 = UB.
Proof. exact several_columns_vec. Qed.
Print Assumptions C78_several_columns_vectors_refuted.

(* only for S_1 do vectors with several columns have a product: all products of two entries, the second index running faster *)
Theorem C78_several_columns_on_S1 : forall F x y m1 m2 qs, part_of [1] m1 x -> part_of [1] m2 y -> Forall legal_cvq qs ->
  exists aa st R, cvrun F (qs ++ [CVec [x] [y]]) cg0 = Ret (aa ++ [RVec [R]], st) /\ part_of [1] (m1 * m2) R /\
    forall i j, 0 <= i < m1 -> 0 <= j < m2 -> m_at (sp_mat R) 0 (i * m2 + j) = (m_at (sp_mat x) 0 i * m_at (sp_mat y) 0 j)%R.
Proof. exact one_vectors. Qed.
Print Assumptions C78_several_columns_on_S1.

(* a vector of S_3 with parts [2,1] and [3] *)
Definition ex_a : spart := mkSpart (mkIrrep 3 [2; 1] [[[1; 2]; [3]]; [[1; 3]; [2]]]) (mkMat 2 1 (fun i _ => IZR (i + 1))).
Definition ex_b : spart := mkSpart (mkIrrep 3 [3] [[[1; 2; 3]]]) (mkMat 1 1 (fun _ _ => 5%R)).
Definition ex_2a : spart := mkSpart (mkIrrep 3 [2; 1] [[[1; 2]; [3]]; [[1; 3]; [2]]]) (mkMat 2 1 (fun i _ => (2 * IZR (i + 1) + IZR (i + 1))%R)).

Example C78_example_vector : one_columns 3 [ex_a; ex_b] /\ sv_type [ex_a; ex_b] = Ret [([3], 1); ([2; 1], 1)].
Proof.
  split; [|reflexivity]. split.
  - cbn. apply NoDup_cons; [intros [H|[]]; discriminate|]. apply NoDup_cons; [intros []|apply NoDup_nil].
  - intros P [<-|[<-|[]]]; [exists [2; 1]|exists [3]]; (split; [apply decb_part; reflexivity|]); (split; [vm_compute; reflexivity|]); (split; [reflexivity|]); (split; [reflexivity|lia]).
Qed.
Example C78_example_request : Forall legal_cvq [CVec [ex_a; ex_b] [ex_a; ex_b]; CTypes (GProd [2; 1] [2; 1])].
Proof.
  destruct C78_example_vector as (V & _). apply Forall_cons; [exists 3; split; [lia|auto]|]. apply Forall_cons; [|apply Forall_nil]. exists 3. split; [lia|]. split; apply decb_part; reflexivity.
Qed.
(* the table of identity matrices is orthogonal, and the squared length of the product is 30 * 30 *)
Example C78_example_orthogonal : orthogonal_factors (fun _ _ _ c j => delta c j).
Proof. exact identity_orthogonal. Qed.
Example C78_example_length : exists R, product_is (fun _ _ _ c j => delta c j) [ex_a; ex_b] [ex_a; ex_b] R /\ vec_dot R R = 900%R.
Proof.
  destruct C78_example_vector as (V & E). destruct (C78_product_of_vectors (fun _ _ _ c j => delta c j) 3 _ _ _ _ ltac:(lia) V V E E) as (T & R0 & _ & _ & H). destruct (H [] (Forall_nil _)) as (aa & st & R & ER & _).
  assert (product_is (fun _ _ _ c j => delta c j) [ex_a; ex_b] [ex_a; ex_b] R) as P by (exists [], aa, st; auto). exists R. split; [auto|].
  rewrite (C78_inner_product _ 3 [ex_a; ex_b] [ex_a; ex_b] [ex_a; ex_b] [ex_a; ex_b] R R ltac:(lia) C78_example_orthogonal V V (alike_refl _) (alike_refl _) P P).
  unfold vec_dot, part_dot, sum_over, rsum, ex_a, ex_b. cbn. change (Pos.to_nat 1) with 1%nat. change (Pos.to_nat 2) with 2%nat. cbn. lra.
Qed.
Example C78_example_combination : combination 2 [ex_a] [ex_a] [ex_2a].
Proof.
  assert (alike [ex_a] [ex_2a]) as A by (apply Forall2_cons; [split; [reflexivity|split; reflexivity]|apply Forall2_nil]). split; [exact A|]. split; [exact A|]. intros [|k] V W Z i j HV HW HZ _ _; [|destruct k; discriminate]. injection HV as <-. injection HW as <-. injection HZ as <-. reflexivity.
Qed.
Example C78_example_S3 : forall F, products_commute F 3 (fun p => exists q, is_perm 2 q /\ p = q ++ [3]).
Proof. intros F. exact (C78_commutes_with_the_smaller_group F 3 ltac:(lia) (C78_commutes_for_S2 F)). Qed.
Example C78_example_columns : forall F, cvrun F [CPart (mkSpart (mkIrrep 3 [2; 1] [[[1; 2]; [3]]; [[1; 3]; [2]]]) (mkMat 2 2 (fun i j => IZR (2 * i + j)))) ex_a] cg0 = UB.
Proof.
  intros F. apply (C78_several_columns_refuted F 3 [2; 1] [2; 1] 2 1 _ _ []); try lia; try (apply decb_part; reflexivity); try apply Forall_nil; (split; [vm_compute; reflexivity|]); (split; [reflexivity|]); (split; [reflexivity|lia]).
Qed.

Example C78_example_S1 : part_of [1] 3 (mkSpart (mkIrrep 1 [1] [[[1]]]) (mkMat 1 3 (fun _ j => IZR j))).
Proof. split; [vm_compute; reflexivity|]. split; [reflexivity|]. split; [reflexivity|lia]. Qed.
