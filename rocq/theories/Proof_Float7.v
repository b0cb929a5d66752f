(* The machine: the errors of the matrices, of the characters and of the multiplicities. *)
From Coq Require Import ZArith List Bool Lia ZifyBool Permutation Reals Lra Floats.SpecFloat.
From Verif Require Import Model_Base Model_Sn Model_Perm Model_Part Model_Comb Model_Tab Model_Irrep Model_Class Model_Type Model_Char Model_CG Model_Float.
From Verif Require Import Spec_Perm Spec_Part Spec_Tab Spec_Rep Spec_Four Spec_Type Spec_Char Spec_CG Spec_Float.
From Verif Require Import Proof_Base Proof_Perm Proof_Sn Proof_SnProps Proof_Part Proof_PartProps Proof_Tab Proof_TabProps Proof_Cycles Proof_Cox Proof_Yor Proof_Sum Proof_Irrep Proof_Rep Proof_Mat Proof_IrrepProps Proof_JM Proof_Conn Proof_Schur Proof_Restr Proof_UpDown Proof_Complete Proof_CombBank Proof_Map Proof_Type Proof_Rept Proof_Rept2 Proof_Char Proof_Class Proof_Class2 Proof_Class3 Proof_Kron Proof_Prune Proof_SnBank Proof_CharBank Proof_CG Proof_CGdown Proof_Int4.
From Verif Require Import Proof_Float1 Proof_Float2 Proof_Float3 Proof_Float4 Proof_Float5 Proof_Float6 Proof_IEEE.
Import Model_Char ListNotations.
Open Scope R_scope.

Lemma inv_pow_le a b : (0 < a)%Z -> (a <= b)%Z -> 0 < / IZR b <= / IZR a.
Proof. intros Ha H. apply IZR_lt in Ha. apply IZR_le in H. split; [apply Rinv_0_lt_compat; lra|apply Rinv_le_contravar; lra]. Qed.

Definition p24 : R := / IZR (2 ^ 24).
Lemma p24_eq : p24 * IZR (2 ^ 24) = 1. Proof. unfold p24. apply Rinv_l. apply not_0_IZR. discriminate. Qed.
Lemma p24_eq' : p24 * 16777216 = 1. Proof. exact p24_eq. Qed.

Lemma inv_mult_pow a b c : (a * b = c)%Z -> (a <> 0)%Z -> (b <> 0)%Z -> / IZR c = / IZR a * / IZR b.
Proof. intros <- Ha Hb. rewrite mult_IZR. apply Rinv_mult. Qed.

Lemma u32_p : u32 = p24. Proof. reflexivity. Qed.
Lemma u64_p : 0 <= 10000 * u64 <= p24.
Proof.
  pose proof p24_eq'. assert (u64 = p24 * / IZR (2 ^ 29)) as E by (apply (inv_mult_pow (2 ^ 24) (2 ^ 29)); [reflexivity|discriminate|discriminate]). pose proof (inv_pow_le 20000 (2 ^ 29) ltac:(lia) ltac:(vm_compute; discriminate)) as I.
  rewrite E. assert (0 < p24) by lra. assert (10000 * (p24 * / IZR (2 ^ 29)) = p24 * (10000 * / IZR (2 ^ 29))) as -> by ring. set (x := / IZR (2 ^ 29)) in *. split; [apply Rmult_le_pos; lra|]. rewrite <- (Rmult_1_r p24) at 2. apply Rmult_le_compat_l; [lra|]. lra.
Qed.
Lemma e32_p : 0 <= e32 <= u64 / 1000 /\ 1000 * (e32 * IZR (2 ^ 80)) <= p24.
Proof.
  pose proof p24_eq'. assert (0 < p24) by lra. split.
  - assert (e32 = u64 * / IZR (2 ^ 96)) as E by (apply (inv_mult_pow (2 ^ 53) (2 ^ 96)); [reflexivity|discriminate|discriminate]). pose proof (inv_pow_le 1000 (2 ^ 96) ltac:(lia) ltac:(vm_compute; discriminate)) as I. pose proof u64_p as U.
    rewrite E. set (x := / IZR (2 ^ 96)) in *. split; [apply Rmult_le_pos; lra|]. unfold Rdiv. apply Rmult_le_compat_l; lra.
  - assert (e32 = p24 * / IZR (2 ^ 125)) as E by (apply (inv_mult_pow (2 ^ 24) (2 ^ 125)); [reflexivity|discriminate|discriminate]).
    assert (/ IZR (2 ^ 125) = / IZR (2 ^ 45) * / IZR (2 ^ 80)) as E2 by (apply (inv_mult_pow (2 ^ 45) (2 ^ 80)); [reflexivity|discriminate|discriminate]). pose proof (inv_pow_le 1000 (2 ^ 45) ltac:(lia) ltac:(vm_compute; discriminate)) as I.
    rewrite E, E2. assert (1000 * (p24 * (/ IZR (2 ^ 45) * / IZR (2 ^ 80)) * IZR (2 ^ 80)) = p24 * (1000 * / IZR (2 ^ 45))) as ->. { rewrite !Rmult_assoc. rewrite Rinv_l by (apply not_0_IZR; discriminate). ring. }
    rewrite <- (Rmult_1_r p24) at 2. apply Rmult_le_compat_l; [lra|]. set (x := / IZR (2 ^ 45)) in *. lra.
Qed.

Lemma alpha_p : 0 <= alpha u32 u64 <= 1.01 * p24.
Proof. unfold alpha. rewrite u32_p. pose proof u64_p. pose proof p24_eq'. lra. Qed.

(* one step: below 2^-22 *)
Lemma gam_p D : (0 <= D <= 2 ^ 80)%Z -> 0 <= gam u32 u64 e32 D <= 4 * p24.
Proof.
  intros (H1 & H2). apply IZR_le in H1, H2. unfold gam, beta. pose proof alpha_p as A. destruct e32_p as (E1 & E2). pose proof p24_eq'. assert (0 <= 6 * e32 * IZR D <= p24) as Q; [|lra].
  assert (e32 * IZR D <= e32 * IZR (2 ^ 80)) by (apply Rmult_le_compat_l; lra). split; [apply Rmult_le_pos; lra|]. lra.
Qed.

Lemma ieee_small : 0 <= u32 <= / 1000 /\ 0 <= u64 <= / 1000 /\ 0 <= e32 <= u64 / 1000 /\ e32 <= u32 /\ 1000 <= big.
Proof. rewrite u32_p. pose proof p24_eq'. pose proof u64_p. destruct e32_p as (E1 & _). assert (1000 <= big) by (unfold big; apply IZR_le; vm_compute; discriminate). lra. Qed.

Lemma zfact_dim n l : (1 <= n)%Z -> is_part n l -> (1 <= dd n l)%Z /\ (dd n l * dd n l <= zfact n)%Z.
Proof.
  intros Hn P. pose proof (dimR_pos n l P Hn) as D0. unfold dimR in D0. change 0 with (IZR 0) in D0. apply lt_IZR in D0. split; [lia|].
  apply le_IZR. rewrite mult_IZR. pose proof (sum_squares (Z.to_nat (n - 1))) as S. replace (Z.of_nat (Z.to_nat (n - 1)) + 1)%Z with n in S by lia. rewrite <- S.
  assert (In l (plist (Z.to_nat (n - 1)))) as I. { apply plist_parts; auto. }
  clear S. induction (plist (Z.to_nat (n - 1))) as [|x L IH]; [destruct I|]. rewrite lsum_cons. assert (0 <= lsum L (fun l => dimR n l * dimR n l)) as LN by (apply lsum_nonneg; intros; nra).
  assert (0 <= dimR n x * dimR n x) by nra. destruct I as [->|I]; [change (dimR n l) with (IZR (dd n l)) in *; lra|specialize (IH I); lra].
Qed.

Lemma ieee_matrix n l o p : (1 <= n)%Z -> is_part n l -> irr_new l = Ret o -> is_perm n p -> (n * (n - 1) <= 2 ^ 22)%Z -> (io_d o <= 2 ^ 80)%Z ->
  exists A M, f_matrix ieee o p = Ret A /\ irr_matrix o p = Ret M /\
    forall i j, (0 <= i < io_d o)%Z -> (0 <= j < io_d o)%Z -> exists a x, fget ieee A i j = Ret a /\ val32 a = Some x /\ Rabs (x - m_at M i j) <= IZR (n * (n - 1)) / IZR (2 ^ 22).
Proof.
  intros Hn P E Hp H1 H2. pose proof (irr_new_good n l o P Hn E) as G. destruct ieee_small as (Hu & Hv & He & _ & HB). pose proof (gam_p (io_d o) (conj (dpos0 o) H2)) as Gm. pose proof p24_eq' as Q.
  assert (0 <= IZR (n * (n - 1)) <= 4194304) as N1 by (split; apply IZR_le; [nia|exact H1]).
  assert (IZR (n * (n - 1)) * gamma u32 u64 e32 o <= IZR (n * (n - 1)) * (4 * p24)) as L by (apply Rmult_le_compat_l; [lra|apply Gm]).
  assert (IZR (n * (n - 1)) * (4 * p24) = IZR (n * (n - 1)) / IZR (2 ^ 22)) as EL.
  { change (IZR (2 ^ 22)) with 4194304. assert (4 * p24 = / 4194304) as ->; [|reflexivity]. apply (Rmult_eq_reg_r 4194304); [|lra]. rewrite Rinv_l by lra. lra. }
  destruct (f_matrix_ok ieee val32 val64 u32 u64 e32 big ieee_rounded Hu Hv He HB n l o G) with (p := p) as (A & M & EA & EM & _ & _ & _ & _ & K); auto.
  - change (2 ^ 25)%Z with 33554432%Z. change (2 ^ 22)%Z with 4194304%Z in H1. nia.
  - assert (IZR (n * (n - 1)) * (4 * p24) <= 4194304 * (4 * p24)) by (apply Rmult_le_compat_r; lra). lra.
  - exists A, M. split; [auto|]. split; [auto|]. intros i j Hi Hj. destruct (K i j Hi Hj) as (a & x & K1 & K2 & K3). exists a, x. split; [auto|]. split; [auto|]. rewrite <- EL. lra.
Qed.

Lemma ieee_character n l o mu : (1 <= n)%Z -> is_part n l -> irr_new l = Ret o -> is_part n mu -> (io_d o * (8 * n + io_d o) <= 2 ^ 22)%Z ->
  exists a x k, f_character ieee o mu = Ret a /\ val32 a = Some x /\ irr_character o mu = Ret (IZR k) /\ Rabs (x - IZR k) <= IZR (io_d o * (8 * n + io_d o)) / IZR (2 ^ 23).
Proof.
  intros Hn P E Pm H. pose proof (irr_new_good n l o P Hn E) as G. destruct ieee_small as (Hu & Hv & He & Heu & HB). destruct (mkirr_ok n l P Hn) as (E' & _). assert (o = mkirr n l) as Eo by (rewrite E' in E; apply Ret_inj in E; auto).
  pose proof (zfact_dim n l Hn P) as (D1 & _). rewrite <- Eo in D1. set (d := io_d o) in *.
  assert (d <= 4194304 /\ n <= 524288)%Z as (D2 & D3). { change (2 ^ 22)%Z with 4194304%Z in H. split; nia. }
  assert (d <= 2 ^ 80)%Z as D4 by (eapply Z.le_trans; [exact D2|vm_compute; discriminate]). assert (0 <= d)%Z as D0 by (clear - D1; lia). pose proof (gam_p d (conj D0 D4)) as Gm. change (gam u32 u64 e32 d) with (gamma u32 u64 e32 o) in Gm. pose proof p24_eq' as Q.
  assert (1 <= IZR d <= 4194304) as Rd by (split; apply IZR_le; auto). assert (0 <= IZR (n - 1) <= 524287) as Rn by (split; apply IZR_le; lia).
  assert (2 * IZR (n - 1) * gamma u32 u64 e32 o <= 2 * IZR (n - 1) * (4 * p24)) as L by (apply Rmult_le_compat_l; [lra|apply Gm]).
  assert (2 * IZR (n - 1) * (4 * p24) <= 2 * 524287 * (4 * p24)) as L2 by (apply Rmult_le_compat_r; lra).
  assert (IZR d * u32 <= 4194304 * u32) as L3 by (apply Rmult_le_compat_r; lra). rewrite u32_p in *.
  destruct (f_yor_ok ieee n l o G) as (b & Eb & T).
  destruct (f_character_ok ieee val32 val64 p24 u64 e32 big ieee_rounded Hu Hv He HB n l o G) with (b := b) (mu := mu) as (a & x & r & Ea & Vx & Er & Dx); auto.
  - change (2 ^ 25)%Z with 33554432%Z. lia.
  - eapply is_part_ppos; eauto.
  - eapply is_part_sum; eauto.
  - lra.
  - fold d. lra.
  - fold d. apply Rle_trans with (IZR (10 * 4194304)); [rewrite mult_IZR; lra|]. unfold big. apply IZR_le. vm_compute. discriminate.
  - rewrite Eo, irr_character_val in Er by auto. apply Ret_inj in Er. destruct (cval_whole n l mu Hn P Pm) as (k & Ek). exists a, x, k. unfold f_character. rewrite Eb. cbn [bind]. split; [auto|]. split; [auto|]. split; [rewrite Eo, irr_character_val by auto; congruence|].
    rewrite <- Ek, Er. eapply Rle_trans; [exact Dx|]. fold d.
    apply Rle_trans with (2 * IZR d * ((8 * IZR (n - 1) + IZR d + 1) * p24)).
    + apply Rmult_le_compat_l; [lra|]. unfold cerr. fold d. lra.
    + assert (8 * IZR (n - 1) + IZR d + 1 <= 8 * IZR n + IZR d) as W by (rewrite minus_IZR; lra).
      assert (IZR (d * (8 * n + d)) / IZR (2 ^ 23) = 2 * IZR d * ((8 * IZR n + IZR d) * p24)) as ->.
      { rewrite mult_IZR, plus_IZR, mult_IZR. change (IZR (2 ^ 23)) with 8388608. assert (/ 8388608 = 2 * p24) as EQ. { apply (Rmult_eq_reg_r 8388608); [|lra]. rewrite Rinv_l by lra. lra. } unfold Rdiv. rewrite EQ. ring. }
      apply Rmult_le_compat_l; [lra|]. apply Rmult_le_compat_r; lra.
Qed.

Lemma zfact_12 n : (1 <= n <= 12)%Z -> (zfact n <= 479001600)%Z.
Proof.
  intros H. assert (n = 1 \/ n = 2 \/ n = 3 \/ n = 4 \/ n = 5 \/ n = 6 \/ n = 7 \/ n = 8 \/ n = 9 \/ n = 10 \/ n = 11 \/ n = 12)%Z as C by lia.
  repeat (destruct C as [->|C]; [vm_compute; discriminate|]). subst n. vm_compute. discriminate.
Qed.

Lemma ieee_coeff n D l1 l2 l3 : (1 <= n <= 12)%Z -> is_part n l1 -> is_part n l2 -> is_part n l3 -> (3 <= D)%Z -> (dd n l1 <= D)%Z -> (dd n l2 <= D)%Z -> (dd n l3 <= D)%Z ->
  (D * (96 * (8 * n + D) + 12 * zlen (pl n) + 234) < 2 ^ 24)%Z ->
  f_coeff ieee l1 l2 l3 = Ret (kz n l1 l2 l3) \/ (1 <= kz n l1 l2 l3)%Z /\ f_coeff ieee l1 l2 l3 = Ret (kz n l1 l2 l3 - 1)%Z.
Proof.
  intros Hn P1 P2 P3 HD D1 D2 D3 H. destruct ieee_small as (Hu & Hv & He & Heu & HB). pose proof (zlen_nonneg (pl n)) as N0. change (2 ^ 24)%Z with 16777216%Z in H.
  assert (D <= 418)%Z as D4 by nia. assert (D <= 2 ^ 80)%Z as D5 by (eapply Z.le_trans; [exact D4|vm_compute; discriminate]). assert (0 <= D)%Z as D0 by (clear - HD; lia). pose proof (gam_p D (conj D0 D5)) as Gm. pose proof p24_eq' as Q.
  assert (3 <= IZR D <= 418) as Rd by (split; apply IZR_le; auto). assert (0 <= IZR (n - 1) <= 11) as Rn by (split; apply IZR_le; lia). assert (1 <= IZR (zfact n) <= 479001600) as Rf by (split; apply IZR_le; [pose proof (zfact_pos n); lia|apply zfact_12; lia]).
  assert (2 * IZR (n - 1) * gam u32 u64 e32 D <= 2 * IZR (n - 1) * (4 * p24)) as L by (apply Rmult_le_compat_l; [lra|apply Gm]).
  assert (2 * IZR (n - 1) * (4 * p24) <= 2 * 11 * (4 * p24)) as L2 by (apply Rmult_le_compat_r; lra).
  assert (IZR D * u32 <= 418 * u32) as L3 by (apply Rmult_le_compat_r; lra). rewrite u32_p in *.
  assert (verr p24 u64 e32 n D <= 2 * IZR D * ((8 * IZR n + IZR D) * p24)) as V. { unfold verr. apply Rmult_le_compat_l; [lra|]. rewrite minus_IZR in *. lra. }
  assert (96 * (IZR D * ((8 * IZR n + IZR D) * p24)) + (12 * IZR (zlen (pl n)) + 234) * p24 * IZR D < 1) as M.
  { apply IZR_lt in H. rewrite mult_IZR, !plus_IZR, !mult_IZR, !plus_IZR, !mult_IZR in H. apply (Rmult_lt_compat_r p24) in H; [|lra]. lra. }
  assert (0 <= (12 * IZR (zlen (pl n)) + 234) * p24 * IZR D) as M0. { apply IZR_le in N0. apply Rmult_le_pos; [|lra]. apply Rmult_le_pos; lra. }
  assert (0 <= IZR D * ((8 * IZR n + IZR D) * p24)) as M1. { apply Rmult_le_pos; [lra|]. apply Rmult_le_pos; [|lra]. rewrite minus_IZR in Rn. lra. }
  apply (f_coeff_ok ieee val32 val64 p24 u64 e32 big ieee_rounded Hu Hv He Heu HB n) with (D := D); auto; try lra.
  - change (2 ^ 25)%Z with 33554432%Z. lia.
  - apply Rle_trans with (IZR (10 * 418)); [rewrite mult_IZR; lra|]. unfold big. apply IZR_le. vm_compute. discriminate.
  - apply Rle_trans with (20 * 418 * (418 * 418 * 479001600)).
    + apply Rmult_le_compat; try lra; [apply Rmult_le_pos; [apply Rmult_le_pos|]; lra|]. apply Rmult_le_compat; try lra; [apply Rmult_le_pos; lra|]. apply Rmult_le_compat; lra.
    + rewrite <- !mult_IZR. unfold big. apply IZR_le. vm_compute. discriminate.
  - change (2 ^ 29)%Z with 536870912%Z. lia.
Qed.

Lemma ieee_coeff_8 n l1 l2 l3 m : (1 <= n <= 8)%Z -> is_part n l1 -> is_part n l2 -> is_part n l3 -> cg_mult n l1 l2 l3 m ->
  f_coeff ieee l1 l2 l3 = Ret m \/ (1 <= m)%Z /\ f_coeff ieee l1 l2 l3 = Ret (m - 1)%Z.
Proof.
  intros Hn P1 P2 P3 C. apply cg_mult_kz in C; [|lia|auto|auto|auto]. subst m.
  assert (zfact n <= 40320 /\ zlen (pl n) <= 22)%Z as (F8 & N8).
  { assert (n = 1 \/ n = 2 \/ n = 3 \/ n = 4 \/ n = 5 \/ n = 6 \/ n = 7 \/ n = 8)%Z as C by lia. repeat (destruct C as [->|C]; [split; vm_compute; discriminate|]). subst n. split; vm_compute; discriminate. }
  assert (forall l, is_part n l -> (dd n l <= 200)%Z) as D8. { intros l P. pose proof (zfact_dim n l ltac:(lia) P). nia. }
  apply (ieee_coeff n 200); auto; lia.
Qed.
