(* Property C91: the rounding of floats: Sn/SnIrrepObj.hpp (matrices and characters are computed in float and double) and
   Sn/SnCGbank.hpp:58-80 (a multiplicity is a float converted to int). *)
From Coq Require Import ZArith List Bool Lia Reals.
From Verif Require Import Model_Base Model_Perm Model_Part Model_Comb Model_Tab Model_Irrep Model_Class Model_Type Model_Char Model_CG Model_Float.
From Verif Require Import Spec_Perm Spec_Part Spec_Rep Spec_Four Spec_Type Spec_CG Spec_Float.
From Verif Require Import Proof_Base Proof_Perm Proof_TabProps Proof_IEEE Proof_Float7 Proof_FloatBug.
Import ListNotations.
Open Scope Z_scope.

(* the machine: binary32 rounds with a relative error of 2^-24, binary64 with 2^-53; results of at most 2^100 do not
   overflow *)
Theorem C91_machine : rounded ieee val32 val64 (/ IZR (2 ^ 24)) (/ IZR (2 ^ 53)) (/ IZR (2 ^ 149)) (IZR (2 ^ 100)).
Proof. exact ieee_rounded. Qed.
Print Assumptions C91_machine.

(* the matrix of a permutation: the entries are within n(n-1)/2^22 of those of the exact orthogonal matrix *)
Theorem C91_matrix_error : forall n lambda o p, 1 <= n -> is_part n lambda -> irr_new lambda = Ret o -> is_perm n p -> n * (n - 1) <= 2 ^ 22 -> io_d o <= 2 ^ 80 ->
  exists A M, f_matrix ieee o p = Ret A /\ irr_matrix o p = Ret M /\
    forall i j, 0 <= i < io_d o -> 0 <= j < io_d o -> exists a x, fget ieee A i j = Ret a /\ val32 a = Some x /\ (Rabs (x - m_at M i j) <= IZR (n * (n - 1)) / IZR (2 ^ 22))%R.
Proof. exact ieee_matrix. Qed.
Print Assumptions C91_matrix_error.

(* the value of a character at a class: within d(8n+d)/2^23 of the whole number it stands for *)
Theorem C91_character_error : forall n lambda o mu, 1 <= n -> is_part n lambda -> irr_new lambda = Ret o -> is_part n mu -> io_d o * (8 * n + io_d o) <= 2 ^ 22 ->
  exists a x k, f_character ieee o mu = Ret a /\ val32 a = Some x /\ irr_character o mu = Ret (IZR k) /\ (Rabs (x - IZR k) <= IZR (io_d o * (8 * n + io_d o)) / IZR (2 ^ 23))%R.
Proof. exact ieee_character. Qed.
Print Assumptions C91_character_error.

(* so rounding to the nearest whole number recovers it *)
Theorem C91_character_nearest : forall n lambda o mu, 1 <= n -> is_part n lambda -> irr_new lambda = Ret o -> is_part n mu -> io_d o * (8 * n + io_d o) < 2 ^ 22 ->
  exists a x k, f_character ieee o mu = Ret a /\ val32 a = Some x /\ irr_character o mu = Ret (IZR k) /\ (Rabs (x - IZR k) < 1 / 2)%R.
Proof. exact character_nearest. Qed.
Print Assumptions C91_character_nearest.

(* up to S_8 a multiplicity is exact or one short: it is never too large and never short by two *)
Theorem C91_multiplicity_up_to_S8 : forall n a b c m, 1 <= n <= 8 -> is_part n a -> is_part n b -> is_part n c -> cg_mult n a b c m ->
  f_coeff ieee a b c = Ret m \/ 1 <= m /\ f_coeff ieee a b c = Ret (m - 1).
Proof. exact ieee_coeff_8. Qed.
Print Assumptions C91_multiplicity_up_to_S8.

(* the same up to S_12 for irreps of dimension at most D, D not too large *)
Theorem C91_multiplicity_small_irreps : forall n L D a b c oa ob oc m, 1 <= n <= 12 -> is_part n a -> is_part n b -> is_part n c ->
  irr_new a = Ret oa -> irr_new b = Ret ob -> irr_new c = Ret oc -> integer_partitions n = Ret L ->
  3 <= D -> io_d oa <= D -> io_d ob <= D -> io_d oc <= D -> D * (96 * (8 * n + D) + 12 * zlen L + 234) < 2 ^ 24 -> cg_mult n a b c m ->
  f_coeff ieee a b c = Ret m \/ 1 <= m /\ f_coeff ieee a b c = Ret (m - 1).
Proof. exact coeff_criterion. Qed.
Print Assumptions C91_multiplicity_small_irreps.

(* CGproduct up to S_8: what it lists occurs, with the listed multiplicity or one more; what occurs twice is listed *)
Theorem C91_product_up_to_S8 : forall n a b, 1 <= n <= 8 -> is_part n a -> is_part n b -> exists tau, f_product ieee a b = Ret tau /\ NoDup (map fst tau) /\
  (forall c m, In (c, m) tau -> is_part n c /\ 0 < m /\ (cg_mult n a b c m \/ cg_mult n a b c (m + 1))) /\
  (forall c m, is_part n c -> cg_mult n a b c m -> 2 <= m -> In c (map fst tau)).
Proof. exact f_product_ok. Qed.
Print Assumptions C91_product_up_to_S8.

(* up to S_6 rounding never shows: every multiplicity is exact, and CGproduct lists exactly what occurs *)
Theorem C91_exact_up_to_S6 : forall n a b c m, 1 <= n <= 6 -> is_part n a -> is_part n b -> is_part n c -> cg_mult n a b c m -> f_coeff ieee a b c = Ret m.
Proof. exact exact_6. Qed.
Print Assumptions C91_exact_up_to_S6.

Theorem C91_exact_product_up_to_S6 : forall n a b, 1 <= n <= 6 -> is_part n a -> is_part n b -> exists tau, f_product ieee a b = Ret tau /\ NoDup (map fst tau) /\
  forall c m, In (c, m) tau <-> is_part n c /\ 0 < m /\ cg_mult n a b c m.
Proof. exact exact_product_6. Qed.
Print Assumptions C91_exact_product_up_to_S6.

(* on S_7 they are not: the conversion to int drops the fraction, and rounding leaves the quotient just below the whole
   number.  [5,2] times [2,2,2,1] contains [2,2,2,1] once, but coeff answers 0 and CGproduct leaves it out *)
Theorem C91_exact_multiplicity_refuted : cg_mult 7 [5; 2] [2; 2; 2; 1] [2; 2; 2; 1] 1 /\ f_coeff ieee [5; 2] [2; 2; 2; 1] [2; 2; 2; 1] = Ret 0 /\
  exists tau, f_product ieee [5; 2] [2; 2; 2; 1] = Ret tau /\ ~ In [2; 2; 2; 1] (map fst tau).
Proof. exact lost. Qed.
Print Assumptions C91_exact_multiplicity_refuted.

(* S4: the irrep (3,1), a transposition, and a multiplicity that comes out right *)
Example C91_example : is_part 4 [3; 1] /\ is_part 4 [2; 1; 1] /\ is_perm 4 [1; 3; 2; 4] /\ 4 * (4 - 1) <= 2 ^ 22 /\
  (exists o, irr_new [3; 1] = Ret o /\ io_d o = 3 /\ io_d o <= 2 ^ 80 /\ io_d o * (8 * 4 + io_d o) < 2 ^ 22) /\
  f_coeff ieee [3; 1] [3; 1] [3; 1] = Ret 1.
Proof.
  split; [apply decb_part; reflexivity|]. split; [apply decb_part; reflexivity|]. split; [apply (check_is_perm [1; 3; 2; 4]); reflexivity|]. split; [vm_compute; discriminate|]. split; [|vm_compute; reflexivity].
  eexists. split; [vm_compute; reflexivity|]. split; [reflexivity|]. split; [vm_compute; discriminate|reflexivity].
Qed.

(* S8, an irrep of dimension 64: the bounds of the last theorems hold with D = 200 *)
Example C91_bounds : 200 * (96 * (8 * 8 + 200) + 12 * 22 + 234) < 2 ^ 24 /\ exists L, integer_partitions 8 = Ret L /\ zlen L = 22.
Proof. split; [reflexivity|]. eexists. split; [vm_compute; reflexivity|reflexivity]. Qed.
