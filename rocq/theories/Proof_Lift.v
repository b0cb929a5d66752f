(* The transform of a function on Sn/Sm against that of the function on Sn that is constant on the cosets. *)
From Coq Require Import ZArith List Bool Lia ZifyBool ZifyNat Reals Lra Sorted Permutation.
From Verif Require Import Model_Base Model_Perm Model_Sn Model_Part Model_Comb Model_Tab Model_Irrep Model_Type Model_Fun Model_FFT.
From Verif Require Import Spec_Perm Spec_Part Spec_Tab Spec_Rep Spec_Four Spec_Fun Spec_FFT.
From Verif Require Import Proof_Base Proof_Perm Proof_Sn Proof_SnProps Proof_Part Proof_PartProps Proof_Tab Proof_TabProps Proof_Cycles Proof_Cox Proof_Yor Proof_Sum
  Proof_Irrep Proof_Rep Proof_Mat Proof_IrrepProps Proof_JM Proof_Conn Proof_Schur Proof_Restr Proof_UpDown Proof_Complete Proof_View Proof_ViewProps
  Proof_Fun Proof_FFTlay Proof_FFTblk Proof_FFTact Proof_FFTstep Proof_FFTmath Proof_FFT Proof_FFTprops Proof_FFTprops2 Proof_FFTlay2 Proof_FFTquo Proof_Kron Proof_Dot Proof_Triv.
Import ListNotations.
Open Scope Z_scope.

(* the matrices of an irrep add up to 0, or to n! for the trivial one *)
Lemma rr_row n p : 1 <= n -> is_perm n p -> rr n [n] p 0 0 = 1%R.
Proof.
  intros Hn P. pose proof (chi_row n p Hn P) as C. unfold chi in C. rewrite d_row in C by auto. unfold trace in C. rewrite rsum_one in C. exact C.
Qed.

Lemma sum_irrep n l i c : 1 <= n -> is_part n l -> 0 <= i < io_d (mkirr n l) -> 0 <= c < io_d (mkirr n l) ->
  lsum (all_perms n) (fun p => rr n l p i c) = if list_eq_dec Z.eq_dec l [n] then IZR (zfact n) else 0%R.
Proof.
  intros Hn P Hi Hc. pose proof (all_perms_lists n ltac:(lia)) as HL. destruct (list_eq_dec Z.eq_dec l [n]) as [->|N].
  - rewrite d_row in * by auto. replace i with 0 by lia. replace c with 0 by lia. rewrite (lsum_ext _ _ (fun _ => 1%R)).
    + rewrite lsum_const, (lists_Sn_len n (all_perms n)) by (auto; lia). ring.
    + intros p Hp. apply HL in Hp. apply rr_row; auto.
  - destruct (mkirr_ok n l P Hn) as (_ & G). destruct (mkirr_ok n [n] (is_part_row n Hn) Hn) as (_ & G1).
    pose proof (mm_zero n l _ [n] _ _ Hn G G1 HL i c 0 0 Hi) as Z0. rewrite d_row in Z0 by auto. rewrite <- (Z0 ltac:(lia)) by (intros (E & _); auto).
    unfold mm. apply lsum_ext. intros p Hp. apply HL in Hp. change (rho n (mkirr n [n]) p 0 0) with (rr n [n] p 0 0). rewrite rr_row by auto. unfold rr. ring.
Qed.

Section Lift.
  Variable m : Z.
  Hypothesis Hm : 1 <= m.
  Local Notation lv k := (m + Z.of_nat k).
  Local Notation dd k l := (io_d (mkirr (lv k) l)).

  Definition fullV (f : Z -> R) (k : nat) (l : list Z) (i s c : Z) : R :=
    rsum (zfact (lv k)) (fun x => (f (s * ncos m k + x / zfact m)%Z * rr (lv k) l (pinv (elt (Z.to_nat (lv k)) x)) i c)%R).

  Lemma full_0 f l i s c : is_part m l -> 0 <= i < dd 0 l -> 0 <= c < dd 0 l -> fullV f 0 l i s c = (f s * if list_eq_dec Z.eq_dec l [m] then IZR (zfact m) else 0)%R.
  Proof.
    intros P Hi Hc. unfold fullV. cbn [ncos]. replace (lv 0) with m in * by lia. rewrite <- (sum_irrep m l i c) by auto. rewrite <- (sum_inv m _ (all_perms_lists m ltac:(lia))).
    rewrite <- lsum_elements, <- lsum_scal, rsum_lsum. apply lsum_ext. intros x Hx. apply in_zrange in Hx. rewrite Z.div_small by auto. replace (s * 1 + 0) with s by lia. reflexivity.
  Qed.

  Lemma full_step f k l r i s c : is_part (lv (S k)) l -> In r (corners l) -> 0 <= i < dd (S k) l -> 0 <= c < dd k (prem l r) ->
    fullV f (S k) l i s (boff (lv (S k)) l r + c) = rsum (lv (S k)) (fun j => rsum (dd k (prem l r)) (fun a =>
      (rr (lv (S k)) l (pcyc (lv (S k)) (lv (S k) - j) (lv (S k))) i (boff (lv (S k)) l r + a) * fullV f k (prem l r) a (s * lv (S k) + j)%Z c)%R)).
  Proof.
    intros P Hr Hi Hc. unfold fullV at 1. rewrite (zfact_step (lv (S k))) by lia. replace (lv (S k) - 1) with (lv k) by lia. pose proof (zfact_pos (lv k)) as ZP. pose proof (zfact_pos m) as ZM. rewrite rsum_prod by lia.
    apply rsum_ext. intros j Hj. unfold fullV.
    rewrite (rsum_ext _ (fun a => (_ * rsum _ _)%R) (fun a => rsum (zfact (lv k)) (fun x => (f ((s * lv (S k) + j) * ncos m k + x / zfact m)%Z * (rr (lv (S k)) l (pcyc (lv (S k)) (lv (S k) - j) (lv (S k))) i (boff (lv (S k)) l r + a) * rr (lv k) (prem l r) (pinv (elt (Z.to_nat (lv k)) x)) a c))%R))).
    2:{ intros a Ha. rewrite <- rsum_scal. apply rsum_ext. intros. ring. }
    rewrite rsum_swap. apply rsum_ext. intros e He. rewrite rsum_scal. cbn [ncos].
    replace ((j * zfact (lv k) + e) / zfact m) with (j * ncos m k + e / zfact m).
    2:{ rewrite <- (ncos_fact m Hm k). replace (j * (ncos m k * zfact m) + e) with (e + (j * ncos m k) * zfact m) by ring. rewrite Z.div_add by lia. lia. }
    replace ((s * lv (S k) + j) * ncos m k + e / zfact m) with (s * (lv (S k) * ncos m k) + (j * ncos m k + e / zfact m)) by ring. f_equal.
    replace (lv (S k)) with (lv k + 1) in * by lia. 
    rewrite pinv_elt_split by lia. apply (rr_sub); auto; try lia.
    - apply is_perm_pcyc; lia.
    - apply is_perm_pinv. replace (lv k) with (Z.of_nat (Z.to_nat (lv k))) at 1 by lia. apply is_perm_elt.
  Qed.

  Lemma full_in f k : forall l i s y, In l (qlist m (lv k)) -> 0 <= i < dd k l -> 0 <= s -> 0 <= y < mlt m k l -> fullV f k l i s (emb m k l y) = (IZR (zfact m) * fourV m f k l i s y)%R.
  Proof.
    induction k as [|k IH]; intros l i s y Hl Hi Hs Hy.
    - rewrite fourV_0 by auto. pose proof (emb_range m Hm 0 l y Hl Hy) as R. pose proof Hl as Hl'. replace (lv 0) with m in Hl' by lia. rewrite qlist_seed in Hl' by auto. destruct Hl' as [<-|[]].
      rewrite full_0 by (auto; apply is_part_row; auto). destruct (list_eq_dec Z.eq_dec [m] [m]); [ring|contradiction].
    - rewrite <- four_step by auto. destruct (jof_find m k l y Hy) as (r & c & Hr & Hc & ->). rewrite emb_block, upV_block by auto. destruct (subs_qlist m Hm k l r Hl Hr) as (Hq & Hc').
      pose proof (proj1 (in_qlist m (lv (S k)) l ltac:(lia)) Hl) as (P & _). rewrite full_step by (auto; apply emb_range; auto). rewrite <- rsum_scal. apply rsum_ext. intros j Hj. rewrite <- rsum_scal. apply rsum_ext. intros a Ha.
      rewrite IH by (auto; nia). ring.
  Qed.

  Lemma full_out f k : forall l i s c, is_part (lv k) l -> 0 <= i < dd k l -> 0 <= c < dd k l -> ~ first_row_has m (tb (mkirr (lv k) l) c) -> fullV f k l i s c = 0%R.
  Proof.
    induction k as [|k IH]; intros l i s c P Hi Hc N.
    - assert (is_part m l) as P' by (replace (lv 0) with m in P by lia; auto). rewrite full_0 by auto. destruct (list_eq_dec Z.eq_dec l [m]) as [->|]; [|ring]. exfalso. apply N. apply one_row_std; auto.
      destruct (mkirr_ok (lv 0) [m] P ltac:(lia)) as (_ & G). apply (tb_standard _ _ _ c G); auto.
    - destruct (boff_find _ l c P ltac:(lia) Hc) as (r & a & Hr & Ha & ->). rewrite tb_boff in N by (auto; lia). replace (lv (S k) - 1) with (lv k) in * by lia.
      assert (is_part (lv k) (prem l r)) as P' by (replace (lv k) with (lv (S k) - 1) by lia; eapply corner_part; eauto). destruct (mkirr_ok _ _ P' ltac:(lia)) as (_ & G').
      pose proof (tb_standard _ _ _ _ G' Ha) as St. rewrite (first_row_yadd m _ r (lv (S k)) l (lv (S k)) St P Hr ltac:(lia)) in N.
      rewrite full_step by auto. rewrite rsum_lsum. apply lsum_0. intros j _. rewrite rsum_lsum. apply lsum_0. intros b Hb. apply in_zrange in Hb. rewrite IH by auto. ring.
  Qed.
End Lift.
