(* Properties C79 and C80: the table of characters, Sn/SnCharBank.hpp with Sn/Sn.hpp class_size, and the values of class
   functions, Sn/SnClassFunction.hpp. *)
From Coq Require Import ZArith List Bool Lia Reals Lra.
From Verif Require Import Model_Base Model_Part Model_Comb Model_Tab Model_Irrep Model_Class Model_Char.
From Verif Require Import Spec_Perm Spec_Part Spec_Rep Spec_Four Spec_Char.
From Verif Require Import Proof_Base Proof_TabProps Proof_PartProps Proof_UpDown Proof_CombBank Proof_CharBank Proof_CharTab.
Import Model_Char ListNotations.
Open Scope Z_scope.

(* ---- C79 ---- *)
(* two rows: the sum over the classes of size times product is n! for the same irrep and 0 for different ones *)
Theorem C79_rows : forall n K l l' f f' s x y, 1 <= n -> lists_parts n K -> is_part n l -> is_part n l' -> character_of n l f -> character_of n l' f' ->
  (forall mu, In mu K -> class_size n mu = Ret (s mu) /\ cf_atl f mu = Ret (x mu) /\ cf_atl f' mu = Ret (y mu)) ->
  sum_over K (fun mu => IZR (s mu) * (x mu * y mu))%R = if list_eq_dec Z.eq_dec l l' then INR (fact (Z.to_nat n)) else 0%R.
Proof. exact table_rows. Qed.
Print Assumptions C79_rows.

(* two columns: size of the class times the sum over the irreps *)
Theorem C79_columns : forall n K mu nu s x y, 1 <= n -> lists_parts n K -> is_part n mu -> is_part n nu -> class_size n mu = Ret s ->
  (forall l, In l K -> exists f, character_of n l f /\ cf_atl f mu = Ret (x l) /\ cf_atl f nu = Ret (y l)) ->
  (IZR s * sum_over K (fun l => x l * y l))%R = if list_eq_dec Z.eq_dec mu nu then INR (fact (Z.to_nat n)) else 0%R.
Proof. exact table_columns. Qed.
Print Assumptions C79_columns.

(* every function g of the classes is a combination of characters, with exactly these coefficients *)
Theorem C79_expansion : forall n K s g x a, 1 <= n -> lists_parts n K ->
  (forall mu, In mu K -> class_size n mu = Ret (s mu)) ->
  (forall l, In l K -> exists f, character_of n l f /\ forall mu, In mu K -> cf_atl f mu = Ret (x l mu)) ->
  ((forall mu, In mu K -> g mu = sum_over K (fun l => a l * x l mu)%R) <->
   (forall l, In l K -> a l = (sum_over K (fun mu => IZR (s mu) * (g mu * x l mu)) / INR (fact (Z.to_nat n)))%R)).
Proof. exact table_expansion. Qed.
Print Assumptions C79_expansion.

Theorem C79_identity_column : forall n l f ts, 1 <= n -> is_part n l -> character_of n l f -> young_tableaux l = Ret ts -> cf_atl f (repeat 1 (Z.to_nat n)) = Ret (INR (length ts)).
Proof. exact table_identity. Qed.
Print Assumptions C79_identity_column.

Theorem C79_dimensions : forall n K ts, 1 <= n -> lists_parts n K -> (forall l, In l K -> young_tableaux l = Ret (ts l)) ->
  sum_over K (fun l => INR (length (ts l)) * INR (length (ts l)))%R = INR (fact (Z.to_nat n)).
Proof. exact table_dimensions. Qed.
Print Assumptions C79_dimensions.

(* the hypotheses can be met for every n: the characters and sizes exist *)
Example C79_example : forall n, 1 <= n -> exists K s x, lists_parts n K /\ (forall mu, In mu K -> class_size n mu = Ret (s mu)) /\
  (forall l, In l K -> exists f, character_of n l f /\ forall mu, In mu K -> cf_atl f mu = Ret (x l mu)).
Proof.
  intros n Hn. exists (plist (Z.to_nat (n - 1))), (Proof_CG.csz n), (fun l mu => cval n l mu). split; [split; [apply NoDup_plist|intros l; apply in_pl; auto]|]. split.
  - intros mu H. apply Proof_CG.csz_ok; auto. apply in_pl; auto.
  - intros l H. apply in_pl in H; auto. exists (chr n l). split; [apply chr_character; auto|]. intros mu Hm. apply in_pl in Hm; auto. apply cf_atl_chr; auto.
Qed.
(* on S3: the characters of (2,1) and (1,1,1) *)
Example C79_example_S3 : class_size 3 [3] = Ret 2 /\ class_size 3 [2; 1] = Ret 3 /\ class_size 3 [1; 1; 1] = Ret 1 /\ (2 * (-1 * 1) + 3 * (0 * -1) + 1 * (2 * 1) = 0)%R /\ (2 * (-1 * -1) + 3 * (0 * 0) + 1 * (2 * 2) = 6)%R.
Proof. split; [reflexivity|]. split; [reflexivity|]. split; [reflexivity|]. split; lra. Qed.

(* ---- C80 ---- *)
Theorem C80_set_then_get : forall n f mu v, 1 <= n -> class_function n f -> is_part n mu -> exists f', cf_setl f mu v = Ret f' /\ class_function n f' /\ cf_atl f' mu = Ret v /\
  forall nu, is_part n nu -> nu <> mu -> exists x, cf_atl f' nu = Ret x /\ cf_atl f nu = Ret x.
Proof. exact class_set_get. Qed.
Print Assumptions C80_set_then_get.

(* class number i is partition number i, for reading, writing, cclass(i) and index(mu) *)
Theorem C80_by_number : forall n f mu L i v, 1 <= n -> class_function n f -> integer_partitions n = Ret L -> nth_error L i = Some mu ->
  cf_at f (Z.of_nat i) = cf_atl f mu /\ cf_set f (Z.of_nat i) v = cf_setl f mu v /\ cclass n (Z.of_nat i) = Ret mu /\ cindex n mu = Ret (Z.of_nat i) /\ exists x, cf_atl f mu = Ret x.
Proof. exact class_number. Qed.
Print Assumptions C80_by_number.

Theorem C80_zero : forall n, 1 <= n -> exists f, cf_zero n = Ret f /\ class_function n f /\ forall mu, is_part n mu -> cf_atl f mu = Ret 0%R.
Proof. exact class_zero. Qed.
Print Assumptions C80_zero.

(* a class of another group is not refused: it is looked up by its number in that group *)
Theorem C80_class_of_another_group : forall n m f mu L i, 1 <= m -> class_function n f -> is_part m mu -> integer_partitions m = Ret L -> nth_error L i = Some mu ->
  cf_atl f mu = cf_at f (Z.of_nat i).
Proof. intros n m f mu L i Hm _. exact (class_other n m f mu L i Hm). Qed.
Print Assumptions C80_class_of_another_group.

(* so a read with a class of another group may answer with some other value, or read outside the tensor *)
Theorem C80_other_group_refused_refuted : ~ (forall n m f mu, 1 <= n -> 1 <= m -> class_function n f -> is_part m mu -> m <> n -> cf_atl f mu = Abort) /\
  exists f mu, class_function 3 f /\ is_part 2 mu /\ cf_atl f mu = Ret 7%R /\ cf_atl f [2; 1] = Ret 7%R /\
  exists nu, is_part 4 nu /\ cf_atl f nu = UB.
Proof.
  assert (class_function 3 (mkCfun 3 [5; 7; 9]%R)) as C by (split; [reflexivity|]; intros L E; vm_compute in E; injection E as <-; reflexivity).
  assert (is_part 2 [1; 1]) as P by (apply decb_part; reflexivity). split.
  - intros H. specialize (H 3 2 (mkCfun 3 [5; 7; 9]%R) [1; 1] ltac:(lia) ltac:(lia) C P ltac:(lia)). discriminate H.
  - exists (mkCfun 3 [5; 7; 9]%R), [1; 1]. split; [exact C|]. split; [exact P|]. split; [reflexivity|]. split; [reflexivity|]. exists [2; 1; 1]. split; [apply decb_part; reflexivity|reflexivity].
Qed.
Print Assumptions C80_other_group_refused_refuted.

Example C80_example : class_function 3 (mkCfun 3 [5; 7; 9]%R) /\ is_part 3 [2; 1] /\ cf_setl (mkCfun 3 [5; 7; 9]%R) [2; 1] 1%R = Ret (mkCfun 3 [5; 1; 9]%R).
Proof. split; [split; [reflexivity|]; intros L E; vm_compute in E; injection E as <-; reflexivity|]. split; [apply decb_part; reflexivity|reflexivity]. Qed.
