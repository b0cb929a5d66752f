(* Properties C92 and C93: the irreps of dimension 1 and transposed shapes, Sn/SnIrrepObj.hpp and Sn/SnCGbank.hpp. *)
From Coq Require Import ZArith List Bool Lia Reals Lra.
From Verif Require Import Model_Base Model_Perm Model_Part Model_Comb Model_Tab Model_Irrep Model_Class Model_Type Model_Char Model_CG.
From Verif Require Import Spec_Perm Spec_Part Spec_Rep Spec_Four Spec_Type Spec_Char Spec_CG Spec_Sign.
From Verif Require Import Proof_Base Proof_Perm Proof_TabProps Proof_Triv Proof_Sign1 Proof_Sign2 Proof_Sign3 Proof_Sign4.
Import ListNotations.
Open Scope Z_scope.

(* ---- C92: the trivial irrep and the sign ---- *)

(* the irrep (n): every matrix is the number 1 *)
Theorem C92_trivial : forall n o p, 1 <= n -> irr_new [n] = Ret o -> is_perm n p -> io_d o = 1 /\ exists M, irr_matrix o p = Ret M /\ m_at M 0 0 = 1%R.
Proof. exact trivial_matrix. Qed.
Print Assumptions C92_trivial.

(* the irrep (1,...,1): every matrix is the sign of the permutation *)
Theorem C92_sign : forall n o p, 1 <= n -> irr_new (column n) = Ret o -> is_perm n p -> io_d o = 1 /\ exists M, irr_matrix o p = Ret M /\ m_at M 0 0 = IZR (sign p).
Proof. exact sign_matrix. Qed.
Print Assumptions C92_sign.

(* the sign of a composition, and of a permutation with given cycle lengths *)
Theorem C92_sign_of_composition : forall n p q r, is_perm n p -> is_perm n q -> is_perm n r -> (forall i, 1 <= i <= n -> img r i = img p (img q i)) -> sign r = sign p * sign q.
Proof. exact sign_composition. Qed.
Print Assumptions C92_sign_of_composition.

Theorem C92_sign_of_cycles : forall n p mu, 1 <= n -> is_part n mu -> cycle_type n p mu -> sign p = (-1) ^ (n - zlen mu).
Proof. exact sign_cycle_type. Qed.
Print Assumptions C92_sign_of_cycles.

(* the two characters *)
Theorem C92_characters : forall n mu o o', 1 <= n -> is_part n mu -> irr_new [n] = Ret o -> irr_new (column n) = Ret o' ->
  irr_character o mu = Ret 1%R /\ irr_character o' mu = Ret (IZR ((-1) ^ (n - zlen mu))).
Proof. exact sign_characters. Qed.
Print Assumptions C92_characters.

(* the product with the trivial irrep changes nothing, after every history of requests *)
Theorem C92_product_with_trivial : forall n a qs, 1 <= n -> is_part n a -> Forall legal_cgq qs -> exists aa s, cgrun (qs ++ [GProd [n] a]) cg0 = Ret (aa ++ [AType [(a, 1)]], s).
Proof. exact product_with_trivial. Qed.
Print Assumptions C92_product_with_trivial.

Example C92_example : is_perm 4 [2; 4; 1; 3] /\ inversions [2; 4; 1; 3] = 3%nat /\ sign [2; 4; 1; 3] = -1 /\ column 4 = [1; 1; 1; 1] /\ (exists o, irr_new [4] = Ret o) /\ (exists o, irr_new (column 4) = Ret o) /\
  Forall legal_cgq [GCoeff [2; 1] [3] [2; 1]; GProd [2; 2] [3; 1]].
Proof.
  split; [apply (check_is_perm [2; 4; 1; 3]); reflexivity|]. split; [reflexivity|]. split; [reflexivity|]. split; [reflexivity|]. split; [eexists; vm_compute; reflexivity|]. split; [eexists; vm_compute; reflexivity|].
  constructor; [exists 3; split; [lia|]; split; [|split]; apply decb_part; reflexivity|]. constructor; [exists 4; split; [lia|]; split; apply decb_part; reflexivity|constructor].
Qed.

(* ---- C93: exchanging rows and columns ---- *)

(* the transposed shape is a partition of the same number, and transposing twice gives the shape back *)
Theorem C93_transposed : forall n l, is_part n l -> is_part n (transposed l) /\ transposed (transposed l) = l /\ (forall r c, 0 <= r -> 0 <= c -> (r < row (transposed l) c <-> c < row l r)).
Proof. intros n l P. split; [exact (is_part_transposed n l P)|]. split; [exact (transposed_twice n l P)|]. intros r c Hr Hc. rewrite (row_transposed n) by auto. exact (cl_cell n l r c P Hr Hc). Qed.
Print Assumptions C93_transposed.

(* dimension, characters and traces *)
Theorem C93_irrep : forall n l o o', 1 <= n -> is_part n l -> irr_new l = Ret o -> irr_new (transposed l) = Ret o' ->
  io_d o' = io_d o /\ (forall mu x, is_part n mu -> irr_character o mu = Ret x -> irr_character o' mu = Ret (IZR ((-1) ^ (n - zlen mu)) * x)%R) /\
  (forall p x, is_perm n p -> irrep_trace l p x -> irrep_trace (transposed l) p (IZR (sign p) * x)%R).
Proof. exact transposed_irrep. Qed.
Print Assumptions C93_irrep.

(* the matrices are the same up to the order of the rows and columns and to signs *)
Theorem C93_matrices : forall n l o o', 1 <= n -> is_part n l -> irr_new l = Ret o -> irr_new (transposed l) = Ret o' ->
  exists (place : Z -> Z) (eps : Z -> R),
    (forall i, 0 <= i < io_d o -> 0 <= place i < io_d o' /\ (eps i = 1 \/ eps i = -1)%R) /\ (forall i j, 0 <= i < io_d o -> 0 <= j < io_d o -> place i = place j -> i = j) /\
    forall p, is_perm n p -> exists M M', irr_matrix o p = Ret M /\ irr_matrix o' p = Ret M' /\
      forall i j, 0 <= i < io_d o -> 0 <= j < io_d o -> m_at M' (place i) (place j) = (IZR (sign p) * (eps i * eps j) * m_at M i j)%R.
Proof. exact transposed_matrix. Qed.
Print Assumptions C93_matrices.

(* CGproduct with the sign irrep is the transposed shape; transposing both factors changes no multiplicity *)
Theorem C93_product_with_sign : forall n a qs, 1 <= n -> is_part n a -> Forall legal_cgq qs -> exists aa s, cgrun (qs ++ [GProd (column n) a]) cg0 = Ret (aa ++ [AType [(transposed a, 1)]], s).
Proof. exact product_with_sign. Qed.
Print Assumptions C93_product_with_sign.

Theorem C93_multiplicities : forall n a b c m, 1 <= n -> is_part n a -> is_part n b -> is_part n c -> (cg_mult n (transposed a) (transposed b) c m <-> cg_mult n a b c m).
Proof. exact mult_transposed. Qed.
Print Assumptions C93_multiplicities.

Example C93_example : is_part 5 [3; 1; 1] /\ is_part 5 [4; 1] /\ transposed [4; 1] = [2; 1; 1; 1] /\ transposed [3; 1; 1] = [3; 1; 1] /\ exists o, irr_new [2; 1; 1; 1] = Ret o /\ io_d o = 4.
Proof.
  split; [apply decb_part; reflexivity|]. split; [apply decb_part; reflexivity|]. split; [reflexivity|]. split; [reflexivity|]. eexists. split; [vm_compute; reflexivity|reflexivity].
Qed.
