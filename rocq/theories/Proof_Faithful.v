(* The irreps together tell permutations apart, and what this says about SnIrrep::transp (C35, C83). *)
From Coq Require Import ZArith List Bool Lia ZifyBool ZifyNat Reals Lra.
From Verif Require Import Model_Base Model_Perm Model_Part Model_Comb Model_Tab Model_Irrep.
From Verif Require Import Spec_Perm Spec_Part Spec_Tab Spec_Rep.
From Verif Require Import Proof_Base Proof_Perm Proof_Part Proof_PartProps Proof_Tab Proof_TabProps Proof_Cycles Proof_Cox Proof_Yor Proof_Sum
  Proof_Irrep Proof_Rep Proof_Mat Proof_IrrepProps Proof_Schur Proof_Restr Proof_Complete.
Import ListNotations.
Open Scope Z_scope.

Lemma separates n p q : 1 <= n -> is_perm n p -> is_perm n q ->
  (forall lambda o M N, is_part n lambda -> irr_new lambda = Ret o -> irr_matrix o p = Ret M -> irr_matrix o q = Ret N -> agree (io_d o) (io_d o) (m_at M) (m_at N)) -> p = q.
Proof.
  intros Hn Pp Pq H. pose proof (inversion_kernel n p q Hn Pp Pq) as K. pose proof (inversion_kernel n q q Hn Pq Pq) as K'.
  destruct (list_eq_dec Z.eq_dec p q) as [|Ne]; [auto|]. exfalso. destruct (list_eq_dec Z.eq_dec q q); [|contradiction]. apply R1_neq_R0. rewrite <- K, <- K'.
  apply lsum_ext. intros l Hl. apply plist_spec in Hl. replace (Z.of_nat (Z.to_nat (n - 1)) + 1) with n in Hl by lia.
  destruct (mkirr_ok n l Hl Hn) as (E & G). destruct (matrix_ok n l _ G p Pp) as (M & EM & _ & _ & VM). destruct (matrix_ok n l _ G q Pq) as (N & EN & _ & _ & VN).
  f_equal. apply rsum_ext. intros i Hi. apply rsum_ext. intros j Hj. f_equal. unfold rr. rewrite <- VM, <- VN by auto. try symmetry. exact (H l (mkirr n l) M N Hl E EM EN i j Hi Hj).
Qed.

(* transp(i,j) is right in all irreps exactly for i<=j+1 *)
Lemma transp_right_iff n i j : 1 <= i <= n -> 1 <= j <= n ->
  ((forall lambda o, is_part n lambda -> irr_new lambda = Ret o ->
     exists t M N, p_transposition n i j = Ret t /\ irr_transp o (mkTransp i j) = Ret M /\ irr_matrix o t = Ret N /\ agree (io_d o) (io_d o) (m_at M) (m_at N)) <-> i <= j + 1).
Proof.
  intros Hi Hj. split.
  - intros H. destruct (Z_le_dec i (j + 1)); auto. exfalso. assert (pcyc n i j = ptransp n i j) as E.
    { apply (separates n); [lia|apply is_perm_pcyc; lia|apply is_perm_ptransp; lia|]. intros l o M N P E EM EN.
      destruct (H l o P E) as (t & M1 & N1 & Et & E1 & E2 & V). destruct (transp_reversed_is_cycle n l o i j P ltac:(lia) E ltac:(lia) ltac:(lia) ltac:(lia)) as (c & M2 & N2 & Ec & E3 & E4 & _ & _ & V2).
      rewrite p_transposition_ok in Et by lia. rewrite p_contiguous_cycle_ok in Ec by lia. apply Ret_inj in Et, Ec. subst t c.
      rewrite E3 in E1. rewrite E4 in EM. rewrite E2 in EN. apply Ret_inj in E1, EM, EN. subst M1 N2 N1. intros a b Ha Hb. rewrite <- V2 by auto. apply V; auto. }
    assert (img (pcyc n i j) (j + 1) = img (ptransp n i j) (j + 1)) as Q by (rewrite E; reflexivity).
    rewrite img_pcyc, img_ptransp in Q by lia. unfold cfun, tfun in Q. destruct (Z.ltb_spec i j); [lia|]. destruct ((j <? j + 1) && (j + 1 <=? i)) eqn:B; [|lia].
    destruct (Z.eqb_spec (j + 1) i); [lia|]. destruct (Z.eqb_spec (j + 1) j); lia.
  - intros Le l o P E. destruct (Z_le_dec i j) as [L|L].
    + destruct (transp_ordered n l o i j P ltac:(lia) E ltac:(lia) L ltac:(lia)) as (t & M & N & A & B & C & _ & _ & V). exists t, M, N. auto.
    + assert (i = j + 1) as -> by lia. destruct (transp_reversed_is_cycle n l o (j + 1) j P ltac:(lia) E ltac:(lia) ltac:(lia) ltac:(lia)) as (c & M & N & A & B & C & _ & _ & V).
      exists c, M, N. split; [|auto]. rewrite <- A. rewrite p_transposition_ok, p_contiguous_cycle_ok by lia. f_equal.
      apply (perm_ext n); [apply is_perm_len; apply is_perm_ptransp; lia|apply is_perm_len; apply is_perm_pcyc; lia|].
      intros x Hx. rewrite img_pcyc, img_ptransp by lia. unfold cfun, tfun. destruct (Z.ltb_spec (j + 1) j); [lia|]. destruct (Z.eqb_spec x (j + 1)), (Z.eqb_spec x j), ((j <? x) && (x <=? j + 1)) eqn:B0; lia.
Qed.
