(* Properties C81, C82: inner products of functions on Sn, Sn/SnFunction.hpp and Sn/ClausenFFT*.hpp.  Statements
   only: the proofs are in Proof_Dot.  The inner product is Spec_Fun.dot, the sum of the products of the values. *)
From Coq Require Import ZArith List Bool Lia Reals Lra.
From Verif Require Import Model_Base Model_Perm Model_Sn Model_Part Model_Tab Model_Irrep Model_Fun Model_FFT.
From Verif Require Import Spec_Perm Spec_Part Spec_Rep Spec_Four Spec_Fun Spec_FFT.
From Verif Require Import Proof_Perm Proof_PermProps Proof_FFTprops2 Proof_Dot.
Import ListNotations.
Open Scope Z_scope.

(* ---- C81: the adjoints, which are the gradients that SnFunction.py propagates ---- *)
Theorem C81_left_translate : forall n f g t t', 1 <= n -> sf_n f = n -> length (sf_v f) = fact (Z.to_nat n) -> sf_n g = n -> length (sf_v g) = fact (Z.to_nat n) -> is_perm n t -> is_inverse n t t' ->
  exists a b, sf_left_translate f t = Ret a /\ sf_left_translate g t' = Ret b /\ dot (sf_v a) (sf_v g) = dot (sf_v f) (sf_v b).
Proof. exact left_adjoint. Qed.
Print Assumptions C81_left_translate.

Theorem C81_right_translate : forall n f g t t', 1 <= n -> sf_n f = n -> length (sf_v f) = fact (Z.to_nat n) -> sf_n g = n -> length (sf_v g) = fact (Z.to_nat n) -> is_perm n t -> is_inverse n t t' ->
  exists a b, sf_right_translate f t = Ret a /\ sf_right_translate g t' = Ret b /\ dot (sf_v a) (sf_v g) = dot (sf_v f) (sf_v b).
Proof. exact right_adjoint. Qed.
Print Assumptions C81_right_translate.

Theorem C81_inv : forall n f g, 1 <= n -> sf_n f = n -> length (sf_v f) = fact (Z.to_nat n) -> sf_n g = n -> length (sf_v g) = fact (Z.to_nat n) ->
  exists a b, sf_inv f = Ret a /\ sf_inv g = Ret b /\ dot (sf_v a) (sf_v g) = dot (sf_v f) (sf_v b).
Proof. exact inv_adjoint. Qed.
Print Assumptions C81_inv.

(* <f*g,h> = <f,h*inv(g)> = <g,inv(f)*h> *)
Theorem C81_convolve : forall n f g h, 1 <= n -> sf_n f = n -> length (sf_v f) = fact (Z.to_nat n) -> sf_n g = n -> length (sf_v g) = fact (Z.to_nat n) -> sf_n h = n -> length (sf_v h) = fact (Z.to_nat n) ->
  exists c fi gi a b, sf_convolve f g = Ret c /\ sf_inv f = Ret fi /\ sf_inv g = Ret gi /\ sf_convolve h gi = Ret a /\ sf_convolve fi h = Ret b /\
    dot (sf_v c) (sf_v h) = dot (sf_v f) (sf_v a) /\ dot (sf_v c) (sf_v h) = dot (sf_v g) (sf_v b).
Proof. exact convolve_adjoint. Qed.
Print Assumptions C81_convolve.

(* translations and the inverse keep inner products *)
Theorem C81_isometries : forall n f g t, 1 <= n -> sf_n f = n -> length (sf_v f) = fact (Z.to_nat n) -> sf_n g = n -> length (sf_v g) = fact (Z.to_nat n) -> is_perm n t ->
  (exists a b, sf_left_translate f t = Ret a /\ sf_left_translate g t = Ret b /\ dot (sf_v a) (sf_v b) = dot (sf_v f) (sf_v g)) /\
  (exists a b, sf_right_translate f t = Ret a /\ sf_right_translate g t = Ret b /\ dot (sf_v a) (sf_v b) = dot (sf_v f) (sf_v g)) /\
  (exists a b, sf_inv f = Ret a /\ sf_inv g = Ret b /\ dot (sf_v a) (sf_v b) = dot (sf_v f) (sf_v g)).
Proof. exact isometries. Qed.
Print Assumptions C81_isometries.

(* python/src/snob/SnFunction.py, ConvolveFn.backward, sends the gradient h of f*g back to f as h*g and to g as
   h*f.  Neither is the adjoint. *)
Theorem C81_python_convolve_gradient_refuted : exists f g h c a b, sf_n f = 3 /\ length (sf_v f) = fact 3 /\ sf_n g = 3 /\ length (sf_v g) = fact 3 /\ sf_n h = 3 /\ length (sf_v h) = fact 3 /\
  sf_convolve f g = Ret c /\ sf_convolve h g = Ret a /\ sf_convolve h f = Ret b /\
  dot (sf_v c) (sf_v h) <> dot (sf_v f) (sf_v a) /\ dot (sf_v c) (sf_v h) <> dot (sf_v g) (sf_v b).
Proof. exact python_gradient_wrong. Qed.
Print Assumptions C81_python_convolve_gradient_refuted.

Example C81_example : is_perm 3 [2;3;1] /\ is_inverse 3 [2;3;1] [3;1;2] /\ length (sf_v (mkFun 3 [1;2;3;4;5;6]%R)) = fact (Z.to_nat 3) /\ dot [1;2;3]%R [4;5;6]%R = 32%R.
Proof.
  assert (is_perm 3 [2;3;1]) as P by (apply (check_is_perm [2;3;1]); reflexivity).
  split; [exact P|]. split; [change [3;1;2] with (pinv [2;3;1]); apply pinv_is_inverse; exact P|]. split; [reflexivity|]. unfold dot. cbn. lra.
Qed.

(* ---- C82: Plancherel's formula ---- *)
(* <f,g> = sum over lambda of d_lambda/n! times the sum of the products of the entries of the coefficients.
   rows_cycle: the group action row by row, as in C45-C47 *)
Theorem C82_plancherel : forall n f g, 1 <= n -> sf_n f = n -> length (sf_v f) = fact (Z.to_nat n) -> sf_n g = n -> length (sf_v g) = fact (Z.to_nat n) ->
  exists F wf wg, fft_new n = Ret F /\ fft_forward rows_cycle F f = Ret wf /\ fft_forward rows_cycle F g = Ret wg /\
    dot (sf_v f) (sf_v g) = sum_over (combine wf wg) (fun PQ => IZR (io_d (sp_irr (fst PQ))) / INR (fact (Z.to_nat n)) *
      rsum (io_d (sp_irr (fst PQ))) (fun i => rsum (io_d (sp_irr (fst PQ))) (fun j => m_at (sp_mat (fst PQ)) i j * m_at (sp_mat (snd PQ)) i j)))%R.
Proof. exact (fun n f g H => plancherel rows_cycle n f g (good_rows n H)). Qed.
Print Assumptions C82_plancherel.

(* the batched action as the code runs it, where it is right (C65) *)
Theorem C82_as_run : forall n f g, 1 <= n <= 4 -> sf_n f = n -> length (sf_v f) = fact (Z.to_nat n) -> sf_n g = n -> length (sf_v g) = fact (Z.to_nat n) ->
  exists F wf wg, fft_new n = Ret F /\ fft_forward irr_view_cycle F f = Ret wf /\ fft_forward irr_view_cycle F g = Ret wg /\
    dot (sf_v f) (sf_v g) = sum_over (combine wf wg) (fun PQ => IZR (io_d (sp_irr (fst PQ))) / INR (fact (Z.to_nat n)) *
      rsum (io_d (sp_irr (fst PQ))) (fun i => rsum (io_d (sp_irr (fst PQ))) (fun j => m_at (sp_mat (fst PQ)) i j * m_at (sp_mat (snd PQ)) i j)))%R.
Proof. exact (fun n f g H => plancherel irr_view_cycle n f g (good_view n H)). Qed.
Print Assumptions C82_as_run.

(* on S2 the functions (5,7) and (1,3) have coefficients 12, -2 and 4, -2: 26 = 1/2*12*4 + 1/2*(-2)*(-2) *)
Example C82_example : dot [5;7]%R [1;3]%R = 26%R /\ (1 / 2 * (12 * 4) + 1 / 2 * (-2 * -2) = 26)%R /\ length (sf_v (mkFun 2 [5; 7]%R)) = fact (Z.to_nat 2).
Proof. unfold dot. cbn. repeat split; lra. Qed.
