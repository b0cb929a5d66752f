(* Property C102: parts and vectors made with a fill pattern.  Statements only: the proofs are in Proof_Fill. *)
From Coq Require Import ZArith List Bool Reals Lia Sorted.
From Verif Require Import Model_Base Model_Perm Model_Part Model_Comb Model_Tab Model_Irrep Model_Type Model_FFT Model_Vec Model_Fill.
From Verif Require Import Spec_Perm Spec_Part Spec_Type Spec_Vec Spec_Fill Proof_Fill.
Import ListNotations.
Open Scope Z_scope.

Theorem C102_part : forall p n lambda m o, is_part n lambda -> 1 <= n -> irr_new lambda = Ret o -> fits_pattern p (io_d o) m ->
  exists P, sp_new p lambda m = Ret P /\ sp_irr P = o /\ part_of lambda m P /\ filled p P.
Proof. exact sp_new_ok. Qed.
Print Assumptions C102_part.

(* a vector has the parts of its type in order, each filled, and get_type gives the type back *)
Theorem C102_vector : forall p n tau, 1 <= n -> type_of n tau -> fits_type p tau ->
  exists v, sv_new p tau = Ret v /\ vec_of tau v /\ Forall (filled p) v /\ sv_type v = Ret tau.
Proof. exact new_vec. Qed.
Print Assumptions C102_vector.

(* the zero vectors of the other properties are these *)
Theorem C102_zero : forall tau, sv_new PZero tau = sv_zero tau.
Proof. exact new_zero. Qed.
Print Assumptions C102_zero.

(* acting on the identity gives the matrix of the permutation *)
Theorem C102_identity_moves : forall n lambda o p, is_part n lambda -> 1 <= n -> irr_new lambda = Ret o -> is_perm n p ->
  exists P Q M, sp_new PIdentity lambda (io_d o) = Ret P /\ irr_matrix o p = Ret M /\ sv_apply p [P] = Ret [Q] /\ sp_irr Q = o /\
  m_n0 (sp_mat Q) = io_d o /\ m_n1 (sp_mat Q) = io_d o /\ forall i j, 0 <= i < io_d o -> 0 <= j < io_d o -> m_at (sp_mat Q) i j = m_at M i j.
Proof. exact identity_moves. Qed.
Print Assumptions C102_identity_moves.

(* in Python, SnPart.ones and SnVec.ones make identities: they are all ones only when nothing is larger than 1 x 1 *)
Theorem C102_python_part_ones_refuted : forall n lambda o, is_part n lambda -> 1 <= n -> irr_new lambda = Ret o ->
  exists P, py_part_ones lambda (io_d o) = Ret P /\ part_of lambda (io_d o) P /\ filled PIdentity P /\ (filled POnes P <-> io_d o = 1).
Proof. exact part_ones. Qed.
Print Assumptions C102_python_part_ones_refuted.

Theorem C102_python_vector_ones_refuted : forall n tau v, 1 <= n -> type_of n tau -> fits_type PIdentity tau -> py_vec_ones tau = Ret v ->
  (Forall (filled POnes) v <-> Forall (fun p => snd p <= 1) tau).
Proof. exact vec_ones. Qed.
Print Assumptions C102_python_vector_ones_refuted.

(* Non-vacuity: the regular type of S3, on which the identity fits and Python's ones is wrong. *)
Example C102_hypotheses : type_of 3 [([3], 1); ([2;1], 2); ([1;1;1], 1)] /\ fits_type PIdentity [([3], 1); ([2;1], 2); ([1;1;1], 1)] /\ fits_type POnes [([3], 1); ([2;1], 2); ([1;1;1], 1)] /\
  ~ Forall (fun p : list Z * Z => snd p <= 1) [([3], 1); ([2;1], 2); ([1;1;1], 1)] /\
  (exists v, py_vec_ones [([3], 1); ([2;1], 2); ([1;1;1], 1)] = Ret v /\ length v = 3%nat).
Proof.
  split; [|split; [|split; [|split]]].
  - split.
    + cbn. repeat constructor; exists 0; (split; [lia|split; [reflexivity|intros j Hj; lia]]).
    + repeat (constructor; [split; [intros x I; cbn in I; intuition lia|split; [repeat constructor; lia|reflexivity]]|]). constructor.
  - intros l m o I E. cbn in I. destruct I as [I|[I|[I|[]]]]; injection I as <- <-; vm_compute in E; injection E as <-; split; try (intros _; reflexivity); lia.
  - intros l m o I E. cbn in I. destruct I as [I|[I|[I|[]]]]; injection I as <- <-; split; try discriminate; lia.
  - intros H. inversion H as [|? ? _ H2]; subst. inversion H2 as [|? ? H3 _]; subst. cbn in H3. lia.
  - eexists. split; [vm_compute; reflexivity|reflexivity].
Qed.
