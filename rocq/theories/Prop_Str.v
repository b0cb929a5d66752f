(* Properties C96, C97: printed forms, and printing what Python's inv_snsm returns.  Statements only: the proofs are in
   Proof_Str, Proof_Str2 and Proof_Str3.  dec is the decimal form of an integer, shown by C96_decimal to be the one that the
   standard library reads back. *)
From Coq Require Import String Ascii Decimal DecimalString ZArith Reals List Bool Lia.
From Verif Require Import Model_Base Model_Perm Model_Sn Model_Part Model_Tab Model_Type Model_Fun Model_Group Model_Comb Model_Irrep Model_FFT Model_Char Model_Str.
From Verif Require Import Spec_Perm.
From Verif Require Import Proof_FFTprops2 Proof_Str Proof_Str2 Proof_Str3.
Import ListNotations.
Open Scope Z_scope.

(* ---- C96: the printed form of an object tells it from every other ---- *)
Theorem C96_decimal : forall z, NilZero.int_of_string (dec z) = Some (Z.to_int z) /\ Z.of_int (Z.to_int z) = z.
Proof. exact (fun z => conj (dec_read z) (DecimalZ.of_to z)). Qed.
Print Assumptions C96_decimal.

(* what is printed, for every array of integers *)
Theorem C96_form : forall indent (l : list Z) (t : stype),
  perm_str indent l = Ret (String.concat " " ("[" :: map dec l ++ ["]"]))%string /\
  part_str indent l = Ret ("[" +++ String.concat "," (map dec l) +++ "]")%string /\
  type_str indent t = Ret ("(" +++ String.concat "," (map (fun p => "[" +++ String.concat "," (map dec (fst p)) +++ "]:" +++ dec (snd p)) t) +++ ")")%string.
Proof.
  exact (fun indent l t => conj (eq_trans (perm_form indent l) (f_equal Ret (perm_concat l))) (conj (part_form indent l)
    (eq_trans (type_form indent t) (f_equal (fun x => Ret ("(" +++ String.concat "," x +++ ")")%string) (map_ext _ _ (fun p => mtext_eq p) t))))).
Qed.
Print Assumptions C96_form.

Theorem C96_permutations : forall i j p q s, perm_str i p = Ret s -> perm_str j q = Ret s -> p = q.
Proof. exact (fun i j p q s A B => proj1 (perm_back p q EmptyString EmptyString i j s s A B eq_refl)). Qed.
Print Assumptions C96_permutations.

Theorem C96_partitions : forall i j l m s, part_str i l = Ret s -> part_str j m = Ret s -> l = m.
Proof. exact (fun i j p q s A B => proj1 (part_back p q EmptyString EmptyString i j s s A B eq_refl)). Qed.
Print Assumptions C96_partitions.

Theorem C96_tableaux : forall i t u s, tab_str i t = Ret s -> tab_str i u = Ret s -> t = u.
Proof. exact tab_back. Qed.
Print Assumptions C96_tableaux.

Theorem C96_tableau_printed : forall i t, exists s, tab_str i t = Ret s.
Proof. exact (fun i t => ex_intro _ _ (tab_form i t)). Qed.
Print Assumptions C96_tableau_printed.

Theorem C96_types : forall i j t u s, type_str i t = Ret s -> type_str j u = Ret s -> t = u.
Proof. exact (fun i j t u s => type_back t u i j s). Qed.
Print Assumptions C96_types.

Theorem C96_representations : forall i j r r' s, rep_str i r = Ret s -> rep_str j r' = Ret s -> map (fun p => (is_lambda (snd p), is_m (snd p))) r = map (fun p => (is_lambda (snd p), is_m (snd p))) r'.
Proof. exact (fun i j r r' s => rep_back r r' i j s). Qed.
Print Assumptions C96_representations.

Theorem C96_named_by_partition : forall i j l m s,
  (syt_str i l = Ret s -> syt_str i m = Ret s -> l = m) /\ (cclass_str i l = Ret s -> cclass_str i m = Ret s -> l = m) /\ (irrep_str i l = Ret s -> irrep_str j m = Ret s -> l = m).
Proof. exact (fun i j l m s => conj (syt_back i l m s) (conj (cclass_back i l m s) (irrep_back i j l m s))). Qed.
Print Assumptions C96_named_by_partition.

Theorem C96_cycles : forall i a b c d, (cycle_str i a b = cycle_str i c d -> a = c /\ b = d) /\ (transp_str i a b = transp_str i c d -> a = c /\ b = d).
Proof. exact cycles_back. Qed.
Print Assumptions C96_cycles.

(* elements of cyclic and dihedral groups, and of their products; also products of products *)
Theorem C96_group_elements :
  (forall x y, celt_str x = celt_str y -> x = y) /\ (forall x y, delt_str x = delt_str y -> x = y) /\
  (forall x y, pelt_str celt_str delt_str x = pelt_str celt_str delt_str y -> x = y) /\
  (forall x y, pelt_str (pelt_str celt_str celt_str) delt_str x = pelt_str (pelt_str celt_str celt_str) delt_str y -> x = y).
Proof. exact elements_back. Qed.
Print Assumptions C96_group_elements.

(* a function on Sn: one line for each element, in the order of the indices, with the value there; if different
   numbers look different and no number contains a newline, two functions that print alike are equal *)
Theorem C96_functions : forall fmt indent f, 1 <= sf_n f -> length (sf_v f) = fact (Z.to_nat (sf_n f)) ->
  exists es, length es = length (sf_v f) /\ (forall i, 0 <= i < Z.of_nat (length es) -> sn_element (sf_n f) i = Ret (nth (Z.to_nat i) es [])) /\
    fun_str fmt indent f = Ret (String.concat "" (map (fun ex => String.concat " " ("[" :: map dec (fst ex) ++ ["]"]) +++ " : " +++ fmt (snd ex) +++ nl)%string (combine es (sf_v f)))).
Proof. exact fun_form. Qed.
Print Assumptions C96_functions.

Theorem C96_functions_apart : forall fmt i j f g s, (forall x y, fmt x = fmt y -> x = y) -> (forall x a b, fmt x <> a +++ nl +++ b) ->
  1 <= sf_n f -> length (sf_v f) = fact (Z.to_nat (sf_n f)) -> 1 <= sf_n g -> length (sf_v g) = fact (Z.to_nat (sf_n g)) ->
  fun_str fmt i f = Ret s -> fun_str fmt j g = Ret s -> f = g.
Proof. exact fun_apart. Qed.
Print Assumptions C96_functions_apart.

(* what is printed for objects named by a partition or a number *)
Theorem C96_names : forall i l r n,
  syt_str i l = Ret (i +++ "StandardYoungTableaux[" +++ String.concat "," (map dec l) +++ "]")%string /\
  cclass_str i l = Ret (i +++ "SnCClass[" +++ String.concat "," (map dec l) +++ "]")%string /\
  irrep_str i l = Ret ("SnIrrep([" +++ String.concat "," (map dec l) +++ "])")%string /\
  rep_str i r = Ret ("SnRepresentationObj(" +++ String.concat "," (map (fun p => "[" +++ String.concat "," (map dec (is_lambda (snd p))) +++ "]:" +++ dec (is_m (snd p)))%string r) +++ ")" +++ nl)%string /\
  sn_str i n = ("Sn(" +++ dec n +++ ")")%string.
Proof. exact names_form. Qed.
Print Assumptions C96_names.

(* a class function: one line for each class, in the order of the partitions *)
Theorem C96_class_functions : forall fmt indent f L, integer_partitions (cf_n f) = Ret L -> length L = length (cf_v f) ->
  cfun_str fmt indent f = Ret (String.concat "" (map (fun lx => indent +++ "SnCClass[" +++ String.concat "," (map dec (fst lx)) +++ "] : " +++ fmt (snd lx) +++ nl)%string (combine L (cf_v f)))).
Proof. exact cfun_form. Qed.
Print Assumptions C96_class_functions.

Theorem C96_class_functions_apart : forall fmt i f g s L L', (forall x y, fmt x = fmt y -> x = y) -> (forall x a b, fmt x <> a +++ nl +++ b) ->
  1 <= cf_n f -> integer_partitions (cf_n f) = Ret L -> length L = length (cf_v f) ->
  1 <= cf_n g -> integer_partitions (cf_n g) = Ret L' -> length L' = length (cf_v g) ->
  cfun_str fmt i f = Ret s -> cfun_str fmt i g = Ret s -> f = g.
Proof. exact cfun_apart. Qed.
Print Assumptions C96_class_functions_apart.

(* a function on Sn/Sm: one line for each value; n and m are not printed, so only the values can be told from it *)
Theorem C96_quotient_functions : forall fmt i f, qfun_str fmt i f = Ret (String.concat "" (map (fun x => fmt x +++ nl)%string (qf_v f))).
Proof. exact qfun_form. Qed.
Print Assumptions C96_quotient_functions.

Theorem C96_quotient_functions_apart : forall fmt i j f g s, (forall x y, fmt x = fmt y -> x = y) -> (forall x a b, fmt x <> a +++ nl +++ b) ->
  qfun_str fmt i f = Ret s -> qfun_str fmt j g = Ret s -> qf_v f = qf_v g.
Proof. exact qfun_apart. Qed.
Print Assumptions C96_quotient_functions_apart.

Theorem C96_quotients_alike_refuted : forall fmt i n m n' m' v, qfun_str fmt i (mkQfun n m v) = qfun_str fmt i (mkQfun n' m' v).
Proof. exact qfun_alike. Qed.
Print Assumptions C96_quotients_alike_refuted.

(* groups *)
Theorem C96_groups : (forall i j a b, sn_str i a = sn_str j b -> a = b) /\ (forall a b, cyclic_str a = cyclic_str b -> a = b) /\ (forall a b, dihedral_str a = dihedral_str b -> a = b) /\
  (forall i a b c, sn_str i a <> cyclic_str b /\ sn_str i a <> dihedral_str c /\ cyclic_str b <> dihedral_str c).
Proof. exact groups_back. Qed.
Print Assumptions C96_groups.

(* the printed form of a product of groups leaves out the first factor *)
Theorem C96_product_group_refuted : forall a b c, a <> b ->
  pgroup_str (cyclic_str a) (cyclic_str c) = pgroup_str (cyclic_str b) (cyclic_str c) /\ cyclic_str a <> cyclic_str b /\ pgroup_str (cyclic_str c) (cyclic_str a) <> pgroup_str (cyclic_str c) (cyclic_str b).
Proof. exact pgroup_back. Qed.
Print Assumptions C96_product_group_refuted.

(* a vector of integers prints its entries, but printing an empty vector reads outside it *)
Theorem C96_vectors : forall v, 0 < zlen v < 2 ^ 31 -> vec_str v = Ret ("(" +++ String.concat "," (map dec v) +++ ")")%string.
Proof. exact vec_form. Qed.
Print Assumptions C96_vectors.
Theorem C96_empty_vector_refuted : vec_str [] = UB.
Proof. exact vec_empty. Qed.
Print Assumptions C96_empty_vector_refuted.

Example C96_example : perm_str "" [3;1;2] = Ret "[ 3 1 2 ]"%string /\ part_str "" [12;3] = Ret "[12,3]"%string /\ type_str "" [([2;1], 2); ([3], 10)] = Ret "([2,1]:2,[3]:10)"%string /\
  tab_str "  " [[1;3];[2]] = Ret ("  1 3 " +++ nl +++ "  2 " +++ nl)%string /\ delt_str (mkD 5 2 (-1)) = "Dihedral(5,2,-1)"%string /\ pgroup_str (cyclic_str 3) (cyclic_str 4) = ",CyclicGroup(4)>"%string.
Proof. repeat split; reflexivity. Qed.

Example C96_class_function_example : integer_partitions 3 = Ret [[3]; [2;1]; [1;1;1]] /\
  cfun_str (fun _ => "1"%string) "" (mkCfun 3 [1;1;1]%R) = Ret ("SnCClass[3] : 1" +++ nl +++ "SnCClass[2,1] : 1" +++ nl +++ "SnCClass[1,1,1] : 1" +++ nl)%string.
Proof. split; reflexivity. Qed.

Example C96_literals : celt_str (mkC 5 2) = "Cyclic(5,2)"%string /\ cycle_str " " 2 4 = " CCycle(2,4)"%string /\ transp_str "" 2 4 = "(2,4)"%string /\
  cyclic_str 5 = "CyclicGroup(5)"%string /\ dihedral_str 5 = "DihedralGroup(5)"%string /\ pelt_str celt_str celt_str (mkC 5 2, mkC 3 1) = "(Cyclic(5,2),Cyclic(3,1))"%string.
Proof. repeat split; reflexivity. Qed.

(* ---- C97: what Python's inv_snsm returns can be printed and asked for its values ---- *)
(* it is inv (C68): printing it reads outside an array, as python/doc/source/SnFFT.rst shows ("[ 32705 1 2 ]"), and
   asking for the value at a permutation of n ends the process.  For the transform row by row, and as it is run *)
Theorem C97_inv_snsm_refuted : forall n m f, 2 <= m < n -> qf_n f = n -> qf_m f = m -> snsm_size n m = Ret (Z.of_nat (length (qf_v f))) ->
  exists F w g, fft_new2 n m = Ret F /\ fft_forward_q rows_cycle F f = Ret w /\ fft_inv rows_cycle F w = Ret g /\
    (forall fmt indent, fun_str fmt indent g = UB) /\ (forall p, is_perm n p -> sf_at g p = Abort).
Proof. exact (fun n m f H => python_inv rows_cycle n m f (good_rows n (Z.le_trans 1 2 n ltac:(lia) (Z.le_trans 2 m n (proj1 H) (Z.lt_le_incl m n (proj2 H))))) H). Qed.
Print Assumptions C97_inv_snsm_refuted.

Theorem C97_as_run_refuted : forall n m f, 2 <= m < n -> n <= 4 -> qf_n f = n -> qf_m f = m -> snsm_size n m = Ret (Z.of_nat (length (qf_v f))) ->
  exists F w g, fft_new2 n m = Ret F /\ fft_forward_q irr_view_cycle F f = Ret w /\ fft_inv irr_view_cycle F w = Ret g /\
    (forall fmt indent, fun_str fmt indent g = UB) /\ (forall p, is_perm n p -> sf_at g p = Abort).
Proof. exact (fun n m f H K => python_inv irr_view_cycle n m f (good_view n (conj (Z.le_trans 1 2 n ltac:(lia) (Z.le_trans 2 m n (proj1 H) (Z.lt_le_incl m n (proj2 H)))) K)) H). Qed.
Print Assumptions C97_as_run_refuted.

(* the quotient by S1 is the whole group, and there printing is right *)
Theorem C97_trivial_quotient : forall n f, 2 <= n -> qf_n f = n -> qf_m f = 1 -> snsm_size n 1 = Ret (Z.of_nat (length (qf_v f))) ->
  exists F w g, fft_new2 n 1 = Ret F /\ fft_forward_q rows_cycle F f = Ret w /\ fft_inv rows_cycle F w = Ret g /\ sf_n g = n /\ sf_v g = qf_v f /\
    (forall fmt indent, exists s, fun_str fmt indent g = Ret s) /\ (forall p, is_perm n p -> exists x, sf_at g p = Ret x).
Proof. exact python_inv_1. Qed.
Print Assumptions C97_trivial_quotient.

Example C97_example : snsm_size 4 2 = Ret 12 /\ sn_size 3 = 6 /\ fun_str (fun _ => "x"%string) "" (mkFun 3 (repeat 0%R 12)) = UB /\ sf_at (mkFun 3 (repeat 0%R 12)) [2;1;4;3] = Abort.
Proof. repeat split; reflexivity. Qed.
