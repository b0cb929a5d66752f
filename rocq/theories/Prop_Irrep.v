(* Properties C31-C36 and C41: Young's orthogonal representations, Sn/SnIrrepObj.hpp, Sn/SnIrrep.hpp. *)
From Coq Require Import ZArith List Bool Lia Reals Lra.
From Verif Require Import Model_Base Model_Perm Model_Part Model_Comb Model_Tab Model_Irrep.
From Verif Require Import Spec_Perm Spec_Part Spec_Tab Spec_Rep.
From Verif Require Import Proof_Base Proof_Perm Proof_PermProps Proof_Part Proof_TabProps Proof_Irrep Proof_IrrepProps Proof_Block Proof_JM Proof_Faithful.
Import ListNotations.
Open Scope Z_scope.

(* every partition of n>=1 meets the hypothesis irr_new lambda = Ret o used below, and the basis is the
   list of standard tableaux of property C19 *)
Theorem C31_every_shape_has_an_irrep : forall n lambda, is_part n lambda -> 1 <= n ->
  exists o, irr_new lambda = Ret o /\ io_n o = n /\ io_lambda o = lambda /\ young_tableaux lambda = Ret (io_tabs o).
Proof. exact irr_new_spec. Qed.
Print Assumptions C31_every_shape_has_an_irrep.

Example C31_example : exists o, irr_new [3;2] = Ret o /\ io_d o = 5 /\ is_part 5 [3;2] /\ is_perm 5 [2;3;1;5;4].
Proof.
  eexists. split; [vm_compute; reflexivity|]. split; [reflexivity|]. split; [apply decb_part; reflexivity|].
  apply (check_is_perm [2;3;1;5;4]). reflexivity.
Qed.

(* the action of a generator is Young's orthogonal form: b-a is the distance of contents *)
Theorem C31_generator_formula : forall n lambda o tau A, is_part n lambda -> 1 <= tau < n -> irr_new lambda = Ret o ->
  m_n0 A = io_d o -> 0 <= m_n1 A ->
  exists A', irr_apply o tau A = Ret A' /\ m_n0 A' = m_n0 A /\ m_n1 A' = m_n1 A /\
    forall i j a b, 0 <= i < io_d o -> 0 <= j < m_n1 A ->
      has_content lambda (znth (io_tabs o) i []) tau a -> has_content lambda (znth (io_tabs o) i []) (tau + 1) b ->
      ((b - a = 1 \/ b - a = -1) /\ m_at A' i j = (IZR (b - a) * m_at A i j)%R) \/
      (exists i', 0 <= i' < io_d o /\ exchanged tau (znth (io_tabs o) i []) (znth (io_tabs o) i' []) /\
         m_at A' i j = (1 / IZR (b - a) * m_at A i j + sqrt (1 - 1 / (IZR (b - a) * IZR (b - a))) * m_at A i' j)%R).
Proof. exact generator_formula. Qed.
Print Assumptions C31_generator_formula.

Theorem C31_coxeter_relations : forall n lambda o A, is_part n lambda -> 1 <= n -> irr_new lambda = Ret o ->
  m_n0 A = io_d o -> 0 <= m_n1 A ->
  (forall i, 1 <= i < n -> exists B, foldM (irr_apply o) [i; i] A = Ret B /\ m_n0 B = io_d o /\ m_n1 B = m_n1 A /\
     agree (io_d o) (m_n1 A) (m_at B) (m_at A)) /\
  (forall i, 1 <= i -> i + 1 < n -> exists B C,
     foldM (irr_apply o) [i; i + 1; i] A = Ret B /\ foldM (irr_apply o) [i + 1; i; i + 1] A = Ret C /\
     m_n0 B = io_d o /\ m_n1 B = m_n1 A /\ m_n0 C = io_d o /\ m_n1 C = m_n1 A /\ agree (io_d o) (m_n1 A) (m_at B) (m_at C)) /\
  (forall i j, 1 <= i < n -> 1 <= j < n -> i + 1 < j \/ j + 1 < i -> exists B C,
     foldM (irr_apply o) [i; j] A = Ret B /\ foldM (irr_apply o) [j; i] A = Ret C /\
     m_n0 B = io_d o /\ m_n1 B = m_n1 A /\ m_n0 C = io_d o /\ m_n1 C = m_n1 A /\ agree (io_d o) (m_n1 A) (m_at B) (m_at C)).
Proof. exact coxeter_relations. Qed.
Print Assumptions C31_coxeter_relations.

Theorem C32_identity : forall n lambda o e, is_part n lambda -> 1 <= n -> irr_new lambda = Ret o -> is_identity n e ->
  exists M, irr_matrix o e = Ret M /\ m_n0 M = io_d o /\ m_n1 M = io_d o /\ agree (io_d o) (io_d o) (m_at M) delta.
Proof. exact identity_matrix. Qed.
Print Assumptions C32_identity.

Theorem C32_homomorphism : forall n lambda o a b c, is_part n lambda -> 1 <= n -> irr_new lambda = Ret o ->
  is_perm n a -> is_perm n b -> is_mult n a b c ->
  exists Ma Mb Mc, irr_matrix o a = Ret Ma /\ irr_matrix o b = Ret Mb /\ irr_matrix o c = Ret Mc /\
    m_n0 Mc = io_d o /\ m_n1 Mc = io_d o /\ agree (io_d o) (io_d o) (m_at Mc) (mprod (io_d o) (m_at Ma) (m_at Mb)).
Proof. exact representation. Qed.
Print Assumptions C32_homomorphism.

Theorem C32_apply_is_left_multiplication : forall n lambda o p A, is_part n lambda -> 1 <= n -> irr_new lambda = Ret o ->
  is_perm n p -> m_n0 A = io_d o -> 0 <= m_n1 A ->
  exists M A', irr_matrix o p = Ret M /\ irr_apply_perm o p A = Ret A' /\ m_n0 A' = io_d o /\ m_n1 A' = m_n1 A /\
    agree (io_d o) (m_n1 A) (m_at A') (mprod (io_d o) (m_at M) (m_at A)).
Proof. exact apply_is_multiplication. Qed.
Print Assumptions C32_apply_is_left_multiplication.

Theorem C32_wrong_size_aborts : forall n lambda o p A, is_part n lambda -> 1 <= n -> irr_new lambda = Ret o ->
  zlen p <> n -> irr_apply_perm o p A = Abort.
Proof. exact wrong_size_aborts. Qed.
Print Assumptions C32_wrong_size_aborts.

Theorem C33_orthogonal : forall n lambda o p q, is_part n lambda -> 1 <= n -> irr_new lambda = Ret o ->
  is_perm n p -> is_inverse n p q ->
  exists M N, irr_matrix o p = Ret M /\ irr_matrix o q = Ret N /\
    agree (io_d o) (io_d o) (mprod (io_d o) (m_at M) (mtrans (m_at M))) delta /\
    agree (io_d o) (io_d o) (mprod (io_d o) (mtrans (m_at M)) (m_at M)) delta /\
    agree (io_d o) (io_d o) (m_at N) (mtrans (m_at M)).
Proof. exact orthogonal. Qed.
Print Assumptions C33_orthogonal.

Theorem C34_cycle : forall n lambda o a b A, is_part n lambda -> 1 <= n -> irr_new lambda = Ret o ->
  1 <= a <= n -> 1 <= b <= n -> m_n0 A = io_d o -> 0 <= m_n1 A ->
  exists c B C, p_contiguous_cycle n a b = Ret c /\ act_cycle (irr_apply o) (mkCyc a b) A = Ret B /\ irr_apply_perm o c A = Ret C /\
    m_n0 B = io_d o /\ m_n1 B = m_n1 A /\ m_n0 C = io_d o /\ m_n1 C = m_n1 A /\ agree (io_d o) (m_n1 A) (m_at B) (m_at C).
Proof. exact cycle_overload. Qed.
Print Assumptions C34_cycle.

Theorem C34_inverse_cycle : forall n lambda o a b A, is_part n lambda -> 1 <= n -> irr_new lambda = Ret o ->
  1 <= a -> a <= b -> b <= n -> m_n0 A = io_d o -> 0 <= m_n1 A ->
  exists c ci B C, p_contiguous_cycle n a b = Ret c /\ p_inverse c = Ret ci /\
    act_cycle_inv (irr_apply o) (mkCyc a b) A = Ret B /\ irr_apply_perm o ci A = Ret C /\
    m_n0 B = io_d o /\ m_n1 B = m_n1 A /\ m_n0 C = io_d o /\ m_n1 C = m_n1 A /\ agree (io_d o) (m_n1 A) (m_at B) (m_at C).
Proof. exact cycle_inv_overload. Qed.
Print Assumptions C34_inverse_cycle.

Theorem C34_transposition : forall n lambda o a b A, is_part n lambda -> 1 <= n -> irr_new lambda = Ret o ->
  1 <= a <= n -> 1 <= b <= n -> m_n0 A = io_d o -> 0 <= m_n1 A ->
  exists t B C, p_transposition n a b = Ret t /\ act_transp (irr_apply o) (mkTransp a b) A = Ret B /\ irr_apply_perm o t A = Ret C /\
    m_n0 B = io_d o /\ m_n1 B = m_n1 A /\ m_n0 C = io_d o /\ m_n1 C = m_n1 A /\ agree (io_d o) (m_n1 A) (m_at B) (m_at C).
Proof. exact transp_overload. Qed.
Print Assumptions C34_transposition.

(* apply_left_inv of a reversed cycle does nothing *)
Theorem C34_inverse_of_reversed_cycle_refuted : forall (o : irr) a b A, b <= a -> act_cycle_inv (irr_apply o) (mkCyc a b) A = Ret A.
Proof. intros o a b A H. unfold act_cycle_inv. apply zfor_nil. exact H. Qed.
Print Assumptions C34_inverse_of_reversed_cycle_refuted.

Theorem C35_transp_ordered : forall n lambda o i j, is_part n lambda -> 1 <= n -> irr_new lambda = Ret o ->
  1 <= i -> i <= j -> j <= n ->
  exists t M N, p_transposition n i j = Ret t /\ irr_transp o (mkTransp i j) = Ret M /\ irr_matrix o t = Ret N /\
    m_n0 M = io_d o /\ m_n1 M = io_d o /\ agree (io_d o) (io_d o) (m_at M) (m_at N).
Proof. exact transp_ordered. Qed.
Print Assumptions C35_transp_ordered.

(* for i>j the code returns the matrix of a cycle ... *)
Theorem C35_transp_reversed_is_a_cycle : forall n lambda o i j, is_part n lambda -> 1 <= n -> irr_new lambda = Ret o ->
  1 <= j -> j < i -> i <= n ->
  exists c M N, p_contiguous_cycle n i j = Ret c /\ irr_transp o (mkTransp i j) = Ret M /\ irr_matrix o c = Ret N /\
    m_n0 M = io_d o /\ m_n1 M = io_d o /\ agree (io_d o) (io_d o) (m_at M) (m_at N).
Proof. exact transp_reversed_is_cycle. Qed.
Print Assumptions C35_transp_reversed_is_a_cycle.

(* ... which is not the matrix of the transposition *)
Theorem C35_transp_refuted : exists o M N, irr_new [1;1;1] = Ret o /\ io_d o = 1 /\ irr_transp o (mkTransp 3 1) = Ret M /\
  irr_matrix o [3;2;1] = Ret N /\ m_at M 0 0 = 1%R /\ m_at N 0 0 = (-1)%R.
Proof. exact transp_reversed_wrong. Qed.
Print Assumptions C35_transp_refuted.

(* transp(i,j) gives the transposition in every irrep exactly when i<=j+1 *)
Theorem C35_transp_exact : forall n i j, 1 <= i <= n -> 1 <= j <= n ->
  ((forall lambda o, is_part n lambda -> irr_new lambda = Ret o ->
     exists t M N, p_transposition n i j = Ret t /\ irr_transp o (mkTransp i j) = Ret M /\ irr_matrix o t = Ret N /\ agree (io_d o) (io_d o) (m_at M) (m_at N)) <-> i <= j + 1).
Proof. exact transp_right_iff. Qed.
Print Assumptions C35_transp_exact.

(* ---- C83: the irreps together tell permutations apart ---- *)
Theorem C83_irreps_separate : forall n p q, 1 <= n -> is_perm n p -> is_perm n q ->
  (forall lambda o M N, is_part n lambda -> irr_new lambda = Ret o -> irr_matrix o p = Ret M -> irr_matrix o q = Ret N -> agree (io_d o) (io_d o) (m_at M) (m_at N)) -> p = q.
Proof. exact separates. Qed.
Print Assumptions C83_irreps_separate.

(* one irrep alone need not: the sign of (1 2 3) is that of the identity *)
Example C83_example : is_perm 3 [2;3;1] /\ is_perm 3 [1;2;3] /\ exists o M N, irr_new [1;1;1] = Ret o /\ irr_matrix o [2;3;1] = Ret M /\ irr_matrix o [1;2;3] = Ret N /\ m_at M 0 0 = m_at N 0 0.
Proof.
  split; [apply (check_is_perm [2;3;1]); reflexivity|]. split; [apply (check_is_perm [1;2;3]); reflexivity|].
  eexists. eexists. eexists. split; [vm_compute; reflexivity|]. split; [lazy -[IZR sqrt Rdiv Rminus Rplus Rmult Rinv]; reflexivity|]. split; [lazy -[IZR sqrt Rdiv Rminus Rplus Rmult Rinv]; reflexivity|].
  lazy -[IZR sqrt Rdiv Rminus Rplus Rmult Rinv Ropp]. lra.
Qed.

Theorem C36_jucys_murphy : forall n lambda o k, is_part n lambda -> 1 <= k -> k <= n -> irr_new lambda = Ret o ->
  exists M v, irr_jm_matrix o k = Ret M /\ irr_jm o k = Ret v /\ zlen v = io_d o /\
    (forall i j, 0 <= i < io_d o -> 0 <= j < io_d o -> i <> j -> m_at M i j = 0%R) /\
    (forall i c, 0 <= i < io_d o -> has_content lambda (znth (io_tabs o) i []) k c -> znth v i 0%R = IZR c /\ m_at M i i = IZR c).
Proof. exact jm_spec. Qed.
Print Assumptions C36_jucys_murphy.

(* the matrix the code forms is the sum of the transpositions (a k), a<k *)
Theorem C36_sum_of_transpositions : forall n lambda o k, is_part n lambda -> 1 <= k -> k <= n -> irr_new lambda = Ret o ->
  exists M Ms, irr_jm_matrix o k = Ret M /\
    (forall a, 1 <= a < k -> exists t, p_transposition n a k = Ret t /\ irr_matrix o t = Ret (Ms a)) /\
    agree (io_d o) (io_d o) (m_at M) (fun i j => rsum (k - 1) (fun a => m_at (Ms (a + 1)) i j)).
Proof. exact jm_is_sum. Qed.
Print Assumptions C36_sum_of_transpositions.

Theorem C36_any_history_of_queries : forall n lambda o ks, is_part n lambda -> 1 <= n -> irr_new lambda = Ret o ->
  (forall k, In k ks -> 1 <= k <= n) ->
  exists c vs, foldM (fun k st => r <- irr_jm_cached o k (fst st) ;; Ret (snd r, snd st ++ [fst r])) ks ([], []) = Ret (c, vs) /\
    Forall2 (fun k v => irr_jm o k = Ret v) ks vs.
Proof. exact jm_history. Qed.
Print Assumptions C36_any_history_of_queries.

Theorem C36_too_large_aborts : forall n lambda o k, is_part n lambda -> 1 <= n -> irr_new lambda = Ret o -> n < k -> irr_jm o k = Abort.
Proof. exact jm_too_large. Qed.
Print Assumptions C36_too_large_aborts.

Example C36_example : has_content [3;2] [[1;2;4];[3;5]] 4 2 /\ has_content [3;2] [[1;2;4];[3;5]] 3 (-1).
Proof. split; [exists 0, 2|exists 1, 0]; repeat split; reflexivity || lia. Qed.

Theorem C41_block_generator : forall n lambda o tau beg e A, is_part n lambda -> 1 <= tau < n -> irr_new lambda = Ret o ->
  m_n0 A = io_d o -> 0 <= beg -> e <= m_n1 A -> 0 <= m_n1 A ->
  exists A' B, irr_apply_block o tau beg e A = Ret A' /\ irr_apply o tau A = Ret B /\ m_n0 A' = m_n0 A /\ m_n1 A' = m_n1 A /\
    forall i j, 0 <= i < io_d o -> 0 <= j < m_n1 A -> m_at A' i j = if (beg <=? j) && (j <? e) then m_at B i j else m_at A i j.
Proof. exact block_generator. Qed.
Print Assumptions C41_block_generator.

Theorem C41_block_permutation : forall n lambda o p beg e A, is_part n lambda -> 1 <= n -> irr_new lambda = Ret o -> is_perm n p ->
  m_n0 A = io_d o -> 0 <= beg -> e <= m_n1 A ->
  exists M A', irr_matrix o p = Ret M /\ irr_apply_perm_block o p beg e A = Ret A' /\ m_n0 A' = m_n0 A /\ m_n1 A' = m_n1 A /\
    forall i j, 0 <= i < io_d o -> 0 <= j < m_n1 A ->
      m_at A' i j = if (beg <=? j) && (j <? e) then mprod (io_d o) (m_at M) (m_at A) i j else m_at A i j.
Proof. exact block_perm. Qed.
Print Assumptions C41_block_permutation.

Theorem C41_block_cycle : forall n lambda o a b beg e A, is_part n lambda -> 1 <= n -> irr_new lambda = Ret o -> 1 <= a -> a <= b -> b <= n ->
  m_n0 A = io_d o -> 0 <= beg -> e <= m_n1 A ->
  exists c M A', p_contiguous_cycle n a b = Ret c /\ irr_matrix o c = Ret M /\
    act_cycle_block (fun t => irr_apply_block o t beg e) (mkCyc a b) A = Ret A' /\ m_n0 A' = m_n0 A /\ m_n1 A' = m_n1 A /\
    forall i j, 0 <= i < io_d o -> 0 <= j < m_n1 A ->
      m_at A' i j = if (beg <=? j) && (j <? e) then mprod (io_d o) (m_at M) (m_at A) i j else m_at A i j.
Proof. exact block_cycle. Qed.
Print Assumptions C41_block_cycle.

(* a reversed cycle, which the full version applies (C34_cycle), is ignored by the block version *)
Theorem C41_block_reversed_cycle_refuted : forall o a b beg e A, b <= a ->
  act_cycle_block (fun t => irr_apply_block o t beg e) (mkCyc a b) A = Ret A.
Proof. exact block_cycle_reversed. Qed.
Print Assumptions C41_block_reversed_cycle_refuted.

Theorem C41_strided_cycle : forall n lambda o a b beg e stride A, is_part n lambda -> 1 <= n -> irr_new lambda = Ret o ->
  1 <= a -> a <= b -> b <= n -> m_n0 A = io_d o -> 0 < stride -> 0 <= beg -> e <= stride -> 0 <= m_n1 A ->
  exists c M A', p_contiguous_cycle n a b = Ret c /\ irr_matrix o c = Ret M /\
    irr_apply_cycle_strided o (mkCyc a b) beg e stride A = Ret A' /\ m_n0 A' = m_n0 A /\ m_n1 A' = m_n1 A /\
    forall i j, 0 <= i < io_d o -> 0 <= j < m_n1 A ->
      m_at A' i j = if (j <? m_n1 A / stride * stride) && (beg <=? j mod stride) && (j mod stride <? e)
                    then mprod (io_d o) (m_at M) (m_at A) i j else m_at A i j.
Proof. exact strided_cycle. Qed.
Print Assumptions C41_strided_cycle.

Theorem C41_strided_permutation : forall n lambda o p beg e stride A, is_part n lambda -> 1 <= n -> irr_new lambda = Ret o -> is_perm n p ->
  m_n0 A = io_d o -> 0 < stride -> 0 <= beg -> e <= stride -> 0 <= m_n1 A ->
  exists M A', irr_matrix o p = Ret M /\
    irr_apply_perm_strided o p beg e stride A = Ret A' /\ m_n0 A' = m_n0 A /\ m_n1 A' = m_n1 A /\
    forall i j, 0 <= i < io_d o -> 0 <= j < m_n1 A ->
      m_at A' i j = if (j <? m_n1 A / stride * stride) && (beg <=? j mod stride) && (j mod stride <? e)
                    then mprod (io_d o) (m_at M) (m_at A) i j else m_at A i j.
Proof. exact strided_perm. Qed.
Print Assumptions C41_strided_permutation.
