(* Learning Clebsch-Gordan factors: one level after the other. *)
From Coq Require Import ZArith List Bool Lia Reals Lra Sorting.Sorted Permutation.
From Verif Require Import Model_Base Model_Perm Model_Sn Model_Part Model_Comb Model_Tab Model_Irrep Model_Type Model_FFT Model_Vec Model_Char Model_CG Model_CGvec Model_VecB Model_Prod Model_Learn.
From Verif Require Import Spec_Perm Spec_Part Spec_Tab Spec_Rep Spec_Four Spec_Type Spec_FFT Spec_Vec Spec_CG Spec_CGvec Spec_VecB Spec_Prod Spec_Learn.
From Verif Require Import Proof_Base Proof_Perm Proof_Sn Proof_Part Proof_PartProps Proof_Tab Proof_TabProps Proof_Cycles Proof_Cox Proof_Yor Proof_Sum Proof_Irrep Proof_Rep Proof_Mat Proof_IrrepProps Proof_JM Proof_Conn Proof_Schur Proof_Restr Proof_UpDown Proof_Complete Proof_Char Proof_CharBank Proof_Type Proof_Rept Proof_FFTmath Proof_FFTlay Proof_FFTlay2 Proof_FFTblk Proof_FFTstep Proof_Vec Proof_Vec2 Proof_Vec3 Proof_Vec4 Proof_Vec5 Proof_Vec6 Proof_Vec7 Proof_Vec8 Proof_Kron Proof_CG Proof_CGdown Proof_CGvec1 Proof_CGvec2 Proof_CGvec3 Proof_CGvec4 Proof_CGvec5 Proof_CGvec6 Proof_CGvec7 Proof_Prod Proof_Hook Proof_Isot Proof_View Proof_VecB Proof_VecB2 Proof_Learn1 Proof_Learn2 Proof_Learn3 Proof_Learn4 Proof_Learn5.
Import ListNotations.
Open Scope Z_scope.

Lemma occ_TK k l1 l2 lam mu : is_part (Z.of_nat k + 2) l1 -> is_part (Z.of_nat k + 2) l2 -> occ k l1 l2 lam mu -> In mu (TK l1 l2).
Proof.
  intros P1 P2 O. pose proof (occ_part k l1 l2 lam mu O) as Pm. destruct O as (P & Hm & Hk). destruct (TTl_ok k l1 l2 P1 P2) as (_ & _ & R). apply R. split; [exact Pm|]. exists lam. split; [apply (cgt_keys (Z.of_nat k + 2)); auto; lia|exact Hm].
Qed.

(* ---- tables that agree for partitions of at most N ---- *)

Definition agree (N : Z) (F F' : ftable) : Prop := forall m a b mu i j, 2 <= m <= N -> is_part m a -> F a b mu i j = F' a b mu i j.
Lemma agree_sym N F F' : agree N F F' -> agree N F' F.
Proof. intros H m a b mu i j Hm P. symmetry. eapply H; eauto. Qed.

Lemma BB_agree F F' k : agree (Z.of_nat k + 1) F F' -> forall l1 l2 x y lam i j, is_part (Z.of_nat k + 1) l1 -> is_part (Z.of_nat k + 1) l2 -> BB F k l1 l2 x y lam i j = BB F' k l1 l2 x y lam i j.
Proof.
  induction k as [|k IH]; intros A l1 l2 x y lam i j P1 P2; [reflexivity|]. cbn [BB]. cbv zeta. replace (Z.of_nat (S k) + 1) with (Z.of_nat k + 2) in * by lia. set (n := Z.of_nat k + 2) in *. apply colsum_ext; [auto|]. intros r a _ _. apply rsum_ext. intros c _. f_equal; [|apply (A n); auto; lia].
  apply colsum_ext; [auto|]. intros p c' Hp _. destruct (prs_in n l1 l2 p P1 P2 Hp) as (_ & _ & Q1 & Q2). replace (n - 1) with (Z.of_nat k + 1) in Q1, Q2 by lia. apply IH; auto. intros m l1' b mu i' j' Hm. apply A. lia.
Qed.
Lemma SS_agree F F' k l1 l2 x y mu a c : agree (Z.of_nat k + 1) F F' -> is_part (Z.of_nat k + 2) l1 -> is_part (Z.of_nat k + 2) l2 -> SSv F k l1 l2 x y mu a c = SSv F' k l1 l2 x y mu a c.
Proof.
  intros A P1 P2. unfold SSv. cbv zeta. apply colsum_ext; [auto|]. intros p c' Hp _. destruct (prs_in _ l1 l2 p P1 P2 Hp) as (_ & _ & Q1 & Q2). replace (Z.of_nat k + 2 - 1) with (Z.of_nat k + 1) in Q1, Q2 by lia. apply BB_agree; auto.
Qed.
Lemma rowz_agree F F' k : agree (Z.of_nat k + 1) F F' -> rowz F k -> rowz F' k.
Proof. intros A H m1 m2 mu c Q1 Q2 Qm Hc. destruct (H m1 m2 mu c Q1 Q2 Qm Hc) as (Y & Y1 & Y2). exists Y. split; [auto|]. intros b Hb. rewrite <- (BB_agree F F' k A) by auto. auto. Qed.
Lemma orthN_agree F F' N : agree N F F' -> orthN N F -> orthN N F'.
Proof. intros A O n l1 l2 mu c e Hn P1 P2 Pm Hc He. rewrite <- (O n l1 l2 mu c e) by auto. apply rsum_ext. intros j _. rewrite !(A n l1) by auto. auto. Qed.

(* ---- the table of the bank ---- *)

Section Table.
  Variable E : list (list R) -> mat * list R.

  Lemma table_at N l1 l2 mu i j : 1 <= ip_getn l1 <= Z.of_nat N -> cg_table E N l1 l2 mu i j = cg_learned E l1 l2 mu i j.
  Proof.
    unfold cg_learned. induction N as [|N IH]; intros H; [lia|]. cbn [cg_table]. destruct (Z.eqb_spec (ip_getn l1) (Z.of_nat (S N))) as [Eq|Ne].
    - rewrite Eq. rewrite Nat2Z.id. cbn [cg_table]. rewrite Eq, Z.eqb_refl. reflexivity.
    - apply IH. lia.
  Qed.
  Lemma table_agree N : agree (Z.of_nat N) (cg_table E N) (cg_learned E).
  Proof. intros m a b mu i j Hm P. apply table_at. rewrite ip_getn_zsum, (is_part_sum _ _ P). lia. Qed.

  Lemma learned_at k l1 l2 mu i j : is_part (Z.of_nat k + 2) l1 -> cg_learned E l1 l2 mu i j = match cg_learn E (cg_table E (S k)) cg0 l1 l2 with Ret (R, _) => le_entry R mu i j | _ => 0%R end.
  Proof.
    intros P. unfold cg_learned. rewrite ip_getn_zsum, (is_part_sum _ _ P). replace (Z.to_nat (Z.of_nat k + 2)) with (S (S k)) by lia. cbn [cg_table]. rewrite ip_getn_zsum, (is_part_sum _ _ P). replace (Z.of_nat k + 2 =? Z.of_nat (S (S k))) with true by (symmetry; apply Z.eqb_eq; lia). reflexivity.
  Qed.

  Lemma le_entry_asl n Rf K mu i j : Forall (is_part n) K -> In mu K -> le_entry (asl Rf K) mu i j = m_at (Rf mu) i j.
  Proof. intros P I. unfold le_entry. rewrite (as_get_asl n) by auto. auto. Qed.

  Lemma boff_hd n lam : 2 <= n -> is_part n lam -> exists r, In r (corners lam) /\ boff n lam r = 0 /\ prem lam r = mu0 lam.
  Proof.
    intros Hn P. pose proof (corners_some n lam ltac:(lia) P) as N. unfold mu0, belows. destruct (corners lam) as [|r C] eqn:EC; [congruence|]. exists r. split; [left; auto|]. split; [|reflexivity]. unfold boff. rewrite EC. cbn [idx]. rewrite Z.eqb_refl. reflexivity.
  Qed.

  Hypothesis HE : exact E.

  Lemma base_row : rowz (cg_learned E) 0.
  Proof.
    assert (forall m, is_part 1 m -> m = [1]) as One. { intros m P. apply in_pl in P; [|lia]. cbn in P. destruct P as [<-|[]]. auto. }
    intros m1 m2 mu c Q1 Q2 Qm Hc. change (Z.of_nat 0 + 1) with 1 in *. apply One in Q1, Q2, Qm. subst. red. cbv zeta. change (Z.of_nat 0 + 1) with 1. assert (io_d (mkirr 1 [1]) = 1) as D1 by reflexivity. rewrite D1. change (1 * 1) with 1.
    exists (fun _ _ => 1%R). split.
    - intros q r b Hq Hr Hb. assert (r = 0) as -> by lia. assert (b = 0) as -> by lia. rewrite !rsum_1. change (0 / 1) with 0. change (0 mod 1) with 0. assert (is_part 1 [1]) as P1 by (apply decb_part; reflexivity).
      assert (rr 1 [1] q 0 0 = 1%R) as ->; [|ring]. assert (q = pid 1) as ->. { pose proof (is_perm_img 1 q 1 Hq ltac:(lia)) as I. apply (perm_ext 1); [apply is_perm_len; auto|apply is_perm_len; apply is_perm_pid; lia|]. intros j Hj. assert (j = 1) as -> by lia. rewrite img_pid by lia. lia. }
      rewrite (rr_id 1) by (auto; lia). apply delta_refl.
    - intros b Hb. assert (b = 0) as -> by lia. cbn [BB]. change (0 / 1) with 0. change (0 mod 1) with 0. rewrite delta_refl. ring.
  Qed.

  Section Step.
    Variables (k : nat) (l1 l2 : list Z).
    Let n := Z.of_nat k + 2.
    Hypotheses (P1 : is_part n l1) (P2 : is_part n l2) (Hbig : n <= 1234567).
    Let F := cg_table E (S k).
    Hypotheses (HR : rowz F k) (HO : orthN (n - 1) F).

    Lemma learned_cols lam mu c a : occ k l1 l2 lam mu -> 0 <= c < WW n l1 l2 mu -> 0 <= a < kz n l1 l2 lam -> cg_learned E l1 l2 mu c (coff n l1 l2 lam mu + a) = fin F k l1 l2 (UU E F k l1 l2) (DDv E F k l1 l2) lam mu c a.
    Proof.
      intros O Hc Ha. rewrite (learned_at k) by auto. fold F. destruct (learn_ok E F k l1 l2 P1 P2 Hbig HE HR HO cg0 ginv0) as (Rf & b' & -> & _ & _ & _ & H). assert (In mu (TK l1 l2)) as Hm by (apply (occ_TK k l1 l2 lam); auto). destruct (H mu Hm) as (_ & _ & _ & V). rewrite (le_entry_asl (n - 1)); [apply V; auto|apply keys_parts; auto|auto].
    Qed.
    Lemma learned_orth mu c e : is_part (n - 1) mu -> 0 <= c < WW n l1 l2 mu -> 0 <= e < WW n l1 l2 mu -> rsum (WW n l1 l2 mu) (fun j => (cg_learned E l1 l2 mu c j * cg_learned E l1 l2 mu e j)%R) = delta c e.
    Proof.
      intros Pm Hc He. destruct (isot_product k l1 l2 P1 P2) as (ee & Hee).
      apply (fin_rows F k l1 l2 P1 P2 ee Hee HR HO (UU E F k l1 l2) (DDv E F k l1 l2)) with (F' := cg_learned E l1 l2); auto; [intros; apply U_cols; auto|intros; apply U_eig; auto|intros; apply learned_cols; auto].
    Qed.
    Lemma learned_row lam c : is_part n lam -> 0 <= c < kz n l1 l2 lam -> exists Y : Z -> Z -> R,
      (forall q r b, is_perm n q -> 0 <= r < io_d (mkirr n lam) -> 0 <= b < DD k l1 l2 -> rsum (DD k l1 l2) (fun b' => (Y r b' * KK k l1 l2 q b' b)%R) = rsum (io_d (mkirr n lam)) (fun s => (rr n lam q r s * Y s b)%R)) /\
      (forall b, 0 <= b < DD k l1 l2 -> rsum (WW n l1 l2 (mu0 lam)) (fun c' => (Wv F k l1 l2 (mu0 lam) 0 c' b * cg_learned E l1 l2 (mu0 lam) c' (coff n l1 l2 lam (mu0 lam) + c)%Z)%R) = Y 0 b).
    Proof.
      intros P Hc. destruct (isot_product k l1 l2 P1 P2) as (ee & Hee).
      apply (fin_rowz F k l1 l2 P1 P2 ee Hee HR HO (UU E F k l1 l2) (DDv E F k l1 l2)); auto; [intros; apply U_cols; auto|intros; apply U_eig; auto|intros; apply learned_cols; auto].
    Qed.
  End Step.

  Lemma levels k : Z.of_nat k + 1 <= 1234567 -> rowz (cg_learned E) k /\ orthN (Z.of_nat k + 1) (cg_learned E).
  Proof.
    induction k as [|k IH]; intros Hb; [split; [apply base_row|]; intros n l1 l2 mu c e Hn; lia|]. destruct IH as (IR & IO); [lia|]. pose proof (table_agree (S k)) as A. replace (Z.of_nat (S k)) with (Z.of_nat k + 1) in A by lia. set (n := Z.of_nat k + 2).
    assert (rowz (cg_table E (S k)) k) as HR by (apply (rowz_agree (cg_learned E)); [apply agree_sym; auto|auto]). assert (orthN (n - 1) (cg_table E (S k))) as HO by (unfold n; replace (Z.of_nat k + 2 - 1) with (Z.of_nat k + 1) by lia; apply (orthN_agree (cg_learned E)); [apply agree_sym; auto|auto]).
    replace (Z.of_nat (S k) + 1) with n in * by (unfold n; lia). split.
    - intros l1 l2 lam c P1 P2 P Hc. red. cbv zeta. replace (Z.of_nat (S k) + 1) with n in * by (unfold n; lia). destruct (learned_row k l1 l2 P1 P2 Hb HR HO lam c P Hc) as (Y & Y1 & Y2). exists Y. split; [exact Y1|]. intros b Hbb. rewrite <- Y2 by exact Hbb.
      destruct (boff_hd n lam) as (r & Hr & B0 & <-); [unfold n; lia|auto|]. pose proof (corner_part n lam r P Hr) as Pm. transitivity (BB (cg_learned E) (S k) l1 l2 (fun u => delta u (b / io_d (mkirr n l2))) (fun u => delta u (b mod io_d (mkirr n l2))) lam (boff (Z.of_nat k + 2) lam r + 0) c); [f_equal; fold n; lia|]. rewrite BB_S_at; [|auto|unfold hrow; fold n; pose proof (dpos (n - 1) (prem lam r) ltac:(unfold n; lia) Pm); lia].
      unfold TTv. fold n. apply rsum_ext. intros c' Hc'. f_equal. rewrite (SS_agree _ (cg_table E (S k))) by (auto; apply agree_sym; auto). reflexivity.
    - intros m l1 l2 mu c e Hm P1 P2 Pm Hc He. destruct (Z.eq_dec m n) as [->|Nm]; [|apply (IO m); auto; unfold n in *; lia]. apply (learned_orth k l1 l2 P1 P2 Hb HR HO); auto.
  Qed.
End Table.
