(* Properties C85 and C86: the Clebsch-Gordan factors that the library learns, Sn/SnCGbank.hpp get_CGfactors and learn.
   E is the eigenvalue routine; `exact` says that it makes no rounding errors.  cg_table E (n-1) are the factors learned
   for the smaller groups and cg_learned E all the learned factors. *)
From Coq Require Import ZArith List Bool Lia Reals Lra.
From Verif Require Import Model_Base Model_Part Model_Comb Model_Tab Model_Irrep Model_Type Model_FFT Model_Vec Model_Char Model_CG Model_CGvec Model_Learn.
From Verif Require Import Spec_Perm Spec_Part Spec_Tab Spec_Rep Spec_Four Spec_Type Spec_FFT Spec_Vec Spec_CG Spec_CGvec Spec_Learn.
From Verif Require Import Proof_Perm Proof_Part Proof_TabProps Proof_CGvec5 Proof_CGvec6 Proof_Vec6 Proof_Learn7 Proof_Learn11 Prop_CGvec.
Import ListNotations.
Open Scope Z_scope.

(* ---- C85 ---- *)
(* learning the factors of a and b always ends with factors: no eigenvalue is missing.  There is one for each irrep of
   S_(n-1) in the product, it has the size of the multiplicity, it is orthogonal, and it is the same after every history *)
Theorem C85_learning_succeeds : forall E n a b qs aa st, exact E -> 2 <= n <= 1234567 -> is_part n a -> is_part n b -> Forall legal_cvq qs -> cvrun (cg_learned E) qs cg0 = Ret (aa, st) ->
  exists t st0 sub fs st', cgrun [GProd a b] cg0 = Ret ([AType t], st0) /\ ty_down t = Ret sub /\ cg_learn E (cg_table E (Z.to_nat (n - 1))) st a b = Ret (fs, st') /\
    Forall2 (fun p f => fst f = fst p /\ m_n0 (snd f) = snd p /\ m_n1 (snd f) = snd p /\ orthogonal_matrix (snd p) (m_at (snd f)) /\
      forall i j, 0 <= i < snd p -> 0 <= j < snd p -> m_at (snd f) i j = cg_learned E a b (fst p) i j) sub fs.
Proof. exact learn_statement. Qed.
Print Assumptions C85_learning_succeeds.

(* with learned factors, inner products of products are products of inner products *)
Theorem C85_inner_product : forall E n x y x' y' R R', exact E -> 1 <= n <= 1234567 -> one_columns n x -> one_columns n y -> alike x x' -> alike y y' ->
  product_is (cg_learned E) x y R -> product_is (cg_learned E) x' y' R' -> vec_dot R R' = (vec_dot x x' * vec_dot y y')%R.
Proof. exact learned_inner. Qed.
Print Assumptions C85_inner_product.

(* a routine that decomposes every symmetric matrix is exact, and there are exact routines *)
Theorem C85_symmetric_is_enough : forall E, (forall X, symmetric X -> eigen_of X (fst (E X)) (snd (E X))) -> exact E.
Proof. exact symmetric_exact. Qed.
Print Assumptions C85_symmetric_is_enough.

Example C85_example_exact : exists E, exact E.
Proof. exact exact_exists. Qed.
Example C85_example_history : forall E, exists aa st, cvrun (cg_learned E) [CVec [ex_a; ex_b] [ex_a; ex_b]] cg0 = Ret (aa, st).
Proof.
  intros E. destruct C78_example_vector as (V & ET). destruct (C78_product_of_vectors (cg_learned E) 3 _ _ _ _ ltac:(lia) V V ET ET) as (T & R0 & _ & _ & H). destruct (H [] (Forall_nil _)) as (aa & st & R & ER & _). eauto.
Qed.
Example C85_example_length : forall E, exact E -> exists R, product_is (cg_learned E) [ex_a; ex_b] [ex_a; ex_b] R /\ vec_dot R R = 900%R.
Proof.
  intros E HE. destruct C78_example_vector as (V & ET). destruct (C78_product_of_vectors (cg_learned E) 3 _ _ _ _ ltac:(lia) V V ET ET) as (T & R0 & _ & _ & H). destruct (H [] (Forall_nil _)) as (aa & st & R & ER & _).
  assert (product_is (cg_learned E) [ex_a; ex_b] [ex_a; ex_b] R) as P by (exists [], aa, st; auto). exists R. split; [auto|].
  rewrite (C85_inner_product E 3 [ex_a; ex_b] [ex_a; ex_b] [ex_a; ex_b] [ex_a; ex_b] R R HE ltac:(lia) V V (alike_refl _) (alike_refl _) P P).
  unfold vec_dot, part_dot, sum_over, rsum, ex_a, ex_b. cbn. change (Pos.to_nat 1) with 1%nat. change (Pos.to_nat 2) with 2%nat. cbn. lra.
Qed.
(* the 2 x 2 matrix with zeros on the diagonal and ones beside it *)
Example C85_example_eigen : eigen_of [[0; 1]; [1; 0]]%R (mkMat 2 2 (fun i j => if (i =? 1) && (j =? 1) then - / sqrt 2 else / sqrt 2)%R) [1; -1]%R.
Proof.
  pose proof (sqrt_sqrt 2 ltac:(lra)) as S2. pose proof (sqrt_lt_R0 2 ltac:(lra)) as S0. assert (/ sqrt 2 * / sqrt 2 = 1 / 2)%R as H by (rewrite <- Rinv_mult; rewrite S2; lra). set (h := (/ sqrt 2)%R) in *. clearbody h.
  split; [intros r [<-|[<-|[]]]; reflexivity|]. split; [reflexivity|]. split; [reflexivity|]. split; [reflexivity|]. change (zlen [[0; 1]; [1; 0]]%R) with 2. split; intros i j Hi Hj; assert (i = 0 \/ i = 1) as [-> | ->] by lia; assert (j = 0 \/ j = 1) as [-> | ->] by lia; lazy -[Rplus Rmult Ropp IZR]; nra.
Qed.

(* ---- C86 ---- *)
(* the parts of the product for irreps of dimension 1 commute with every permutation, for every n *)
Theorem C86_dimension_one : forall E n x y p x' y' R R', exact E -> 1 <= n <= 1234567 -> one_columns n x -> one_columns n y -> is_perm n p -> sv_apply p x = Ret x' -> sv_apply p y = Ret y' ->
  product_is (cg_learned E) x y R -> product_is (cg_learned E) x' y' R' -> exists R2, sv_apply p R = Ret R2 /\ alike R2 R' /\ Forall2 (fun P Q => io_d (sp_irr P) = 1 -> same_part P Q) R2 R'.
Proof. exact one_rows. Qed.
Print Assumptions C86_dimension_one.

(* up to n = 3 the products commute with every permutation *)
Theorem C86_commutes_up_to_S3 : forall E n, exact E -> 1 <= n <= 3 -> products_commute (cg_learned E) n (is_perm n).
Proof. exact commute_upto_3. Qed.
Print Assumptions C86_commutes_up_to_S3.

(* for n = 4 they commute with the permutations that fix 4 ... *)
Theorem C86_S4_fixing_4 : forall E, exact E -> products_commute (cg_learned E) 4 (fun p => exists q, is_perm 3 q /\ p = q ++ [4]).
Proof. intros E HE. exact (C78_commutes_with_the_smaller_group (cg_learned E) 4 ltac:(lia) (C86_commutes_up_to_S3 E 3 HE ltac:(lia))). Qed.
Print Assumptions C86_S4_fixing_4.

(* ... but not with all of S_4: the signs of eigenvectors are left to the routine, and learn does not relate the blocks of
   [2,1,1] to each other, because the entry of the transposition (3,4) that it divides by is 0 *)
Theorem C86_S4_refuted : exists E, exact E /\ ~ products_commute (cg_learned E) 4 (is_perm 4).
Proof. exact some_break. Qed.
Print Assumptions C86_S4_refuted.

(* every exact routine has a companion, with the same eigenvalues and some eigenvectors negated, such that one of the two fails *)
Theorem C86_signs_matter : forall E, exact E -> exists E', exact E' /\ (forall X, snd (E' X) = snd (E X)) /\
  (forall X j, (forall c, m_at (fst (E' X)) c j = m_at (fst (E X)) c j) \/ (forall c, m_at (fst (E' X)) c j = - m_at (fst (E X)) c j)%R) /\
  ~ (products_commute (cg_learned E) 4 (is_perm 4) /\ products_commute (cg_learned E') 4 (is_perm 4)).
Proof. exact flip_statement. Qed.
Print Assumptions C86_signs_matter.

Example C86_example : forall E, exact E -> exists x' R R' R2, one_columns 3 [ex_a; ex_b] /\ sv_apply [2; 3; 1] [ex_a; ex_b] = Ret x' /\ product_is (cg_learned E) [ex_a; ex_b] [ex_a; ex_b] R /\ product_is (cg_learned E) x' x' R' /\ sv_apply [2; 3; 1] R = Ret R2 /\ Forall2 same_part R2 R'.
Proof.
  intros E HE. destruct C78_example_vector as (V & ET). assert (is_perm 3 [2; 3; 1]) as Pp by (apply check_is_perm; reflexivity).
  pose proof V as UV. apply one_ugood in UV as ((GV & _) & _); [|lia]. destruct (apply_pure 3 [2; 3; 1] [ex_a; ex_b] ltac:(lia) Pp GV) as (x' & Ex & Fx). pose proof (moved_alike _ _ _ _ Fx) as A. pose proof (alike_columns _ _ _ A V) as V'.
  pose proof ET as ET'. rewrite (alike_type _ _ A) in ET'. destruct (C78_product_of_vectors (cg_learned E) 3 _ _ _ _ ltac:(lia) V V ET ET) as (T & R0 & _ & _ & H). destruct (H [] (Forall_nil _)) as (aa & st & R & ER & _).
  destruct (C78_product_of_vectors (cg_learned E) 3 _ _ _ _ ltac:(lia) V' V' ET' ET') as (T' & R0' & _ & _ & H'). destruct (H' [] (Forall_nil _)) as (aa' & st' & R' & ER' & _).
  assert (product_is (cg_learned E) [ex_a; ex_b] [ex_a; ex_b] R) as P by (exists [], aa, st; auto). assert (product_is (cg_learned E) x' x' R') as P' by (exists [], aa', st'; auto).
  destruct (C86_commutes_up_to_S3 E 3 HE ltac:(lia) _ _ _ _ _ _ _ V V Pp Ex Ex P P') as (R2 & E2 & F2). exists x', R, R', R2. auto 10.
Qed.
