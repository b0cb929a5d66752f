(* Property C99: the transforms of class functions, Sn/SnFunction.hpp, Sn/ClausenFFT*.hpp and Sn/SnIrrep.hpp.
   Statements only: the proofs are in Proof_Centre. *)
From Coq Require Import ZArith List Bool Lia Reals Lra.
From Verif Require Import Model_Base Model_Perm Model_Sn Model_Part Model_Comb Model_Tab Model_Irrep Model_Fun Model_FFT.
From Verif Require Import Spec_Perm Spec_Part Spec_Rep Spec_Four Spec_Fun Spec_FFT Spec_Centre.
From Verif Require Import Proof_Perm Proof_PermProps Proof_FFTprops2 Proof_Centre.
Import ListNotations.
Open Scope Z_scope.

(* ---- C99 ---- *)
(* with rows turned one at a time, every n; with the code's batched row turn, n up to 4 (see C45) *)
Theorem C99_scalar_forward : forall n f, 1 <= n -> on_group n f -> class_function n f ->
  exists F ls w, fft_new n = Ret F /\ integer_partitions n = Ret ls /\ fft_forward rows_cycle F f = Ret w /\ Forall2 (scalar_coefficient n f) ls w.
Proof. exact (fun n f H => scalar_forward rows_cycle n f (good_rows n H)). Qed.
Print Assumptions C99_scalar_forward.
Theorem C99_scalar_forward_code : forall n f, 1 <= n <= 4 -> on_group n f -> class_function n f ->
  exists F ls w, fft_new n = Ret F /\ integer_partitions n = Ret ls /\ fft_forward irr_view_cycle F f = Ret w /\ Forall2 (scalar_coefficient n f) ls w.
Proof. exact (fun n f H => scalar_forward irr_view_cycle n f (good_view n H)). Qed.
Print Assumptions C99_scalar_forward_code.

(* a function whose transform is scalar in every part is a class function *)
Theorem C99_scalar_backward : forall n f F w, 1 <= n -> on_group n f -> fft_new n = Ret F -> fft_forward rows_cycle F f = Ret w ->
  (forall P, In P w -> exists c, scalar_part c P) -> class_function n f.
Proof. exact (fun n f F w H => scalar_backward rows_cycle n f F w (good_rows n H)). Qed.
Print Assumptions C99_scalar_backward.
Theorem C99_scalar_backward_code : forall n f F w, 1 <= n <= 4 -> on_group n f -> fft_new n = Ret F -> fft_forward irr_view_cycle F f = Ret w ->
  (forall P, In P w -> exists c, scalar_part c P) -> class_function n f.
Proof. exact (fun n f F w H => scalar_backward irr_view_cycle n f F w (good_view n H)). Qed.
Print Assumptions C99_scalar_backward_code.

(* convolution with a class function commutes, and only class functions commute with everything *)
Theorem C99_commutes : forall n f g, 1 <= n -> on_group n f -> on_group n g -> class_function n f -> exists h, sf_convolve f g = Ret h /\ sf_convolve g f = Ret h.
Proof. exact class_commutes. Qed.
Print Assumptions C99_commutes.
Theorem C99_only_class_functions_commute : forall n f, 1 <= n -> on_group n f ->
  (forall g, on_group n g -> exists h, sf_convolve f g = Ret h /\ sf_convolve g f = Ret h) -> class_function n f.
Proof. exact commutes_class. Qed.
Print Assumptions C99_only_class_functions_commute.

(* the character of an irrep, as a function, transforms to n!/d times the identity there and to zero elsewhere *)
Theorem C99_character : forall n lambda f o, 1 <= n -> is_part n lambda -> on_group n f -> character_function n lambda f -> irr_new lambda = Ret o ->
  exists F ls w, fft_new n = Ret F /\ integer_partitions n = Ret ls /\ fft_forward rows_cycle F f = Ret w /\
    Forall2 (fun l P => irr_new l = Ret (sp_irr P) /\ (l = lambda -> scalar_part (INR (fact (Z.to_nat n)) / IZR (io_d o))%R P) /\ (l <> lambda -> scalar_part 0%R P)) ls w.
Proof. exact (fun n a f o H => character_transform rows_cycle n a f o (good_rows n H)). Qed.
Print Assumptions C99_character.
Theorem C99_character_code : forall n lambda f o, 1 <= n <= 4 -> is_part n lambda -> on_group n f -> character_function n lambda f -> irr_new lambda = Ret o ->
  exists F ls w, fft_new n = Ret F /\ integer_partitions n = Ret ls /\ fft_forward irr_view_cycle F f = Ret w /\
    Forall2 (fun l P => irr_new l = Ret (sp_irr P) /\ (l = lambda -> scalar_part (INR (fact (Z.to_nat n)) / IZR (io_d o))%R P) /\ (l <> lambda -> scalar_part 0%R P)) ls w.
Proof. exact (fun n a f o H => character_transform irr_view_cycle n a f o (good_view n H)). Qed.
Print Assumptions C99_character_code.

(* two characters convolve to a multiple of the first one, or to zero *)
Theorem C99_characters_convolve : forall n lambda mu f g h o, 1 <= n -> is_part n lambda -> is_part n mu -> on_group n f -> on_group n g ->
  character_function n lambda f -> character_function n mu g -> irr_new lambda = Ret o -> sf_convolve f g = Ret h ->
  forall p, is_perm n p -> exists x, sf_at f p = Ret x /\ sf_at h p = Ret (if list_eq_dec Z.eq_dec lambda mu then INR (fact (Z.to_nat n)) / IZR (io_d o) * x else 0)%R.
Proof. exact character_product. Qed.
Print Assumptions C99_characters_convolve.

(* there is a character function for every irrep, and it is a class function *)
Theorem C99_character_functions : forall n lambda, 1 <= n -> is_part n lambda -> exists f, on_group n f /\ character_function n lambda f /\ class_function n f.
Proof.
  exact (fun n l Hn P => match character_exists n l Hn P with ex_intro _ f (conj A C) => ex_intro _ f (conj A (conj C (character_class n l f Hn P A C))) end).
Qed.
Print Assumptions C99_character_functions.

(* the hypotheses hold of a function with three values on S3, and fail of one supported at one transposition *)
Example C99_class_function_met : on_group 3 (mkFun 3 [7; 2; 2; 5; 5; 2]%R) /\ class_function 3 (mkFun 3 [7; 2; 2; 5; 5; 2]%R).
Proof. exact cls3_class. Qed.
Example C99_class_function_not_met : on_group 3 (mkFun 3 [0; 1; 0; 0; 0; 0]%R) /\ ~ class_function 3 (mkFun 3 [0; 1; 0; 0; 0; 0]%R).
Proof. exact odd3_not. Qed.
