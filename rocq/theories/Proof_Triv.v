(* The one-row irrep is trivial, the one-column irrep is a sign. *)
From Coq Require Import ZArith List Bool Lia Reals Lra Permutation.
From Verif Require Import Model_Base Model_Perm Model_Sn Model_Part Model_Comb Model_Tab Model_Irrep Model_Type Model_Char Model_CG.
From Verif Require Import Spec_Perm Spec_Part Spec_Tab Spec_Rep Spec_Four Spec_Type Spec_CG.
From Verif Require Import Proof_Base Proof_Perm Proof_Sn Proof_Part Proof_PartProps Proof_Tab Proof_TabProps Proof_Cycles Proof_Cox Proof_Yor Proof_Sum Proof_Irrep Proof_Rep Proof_Mat Proof_IrrepProps Proof_JM Proof_Conn Proof_Schur Proof_Restr Proof_UpDown Proof_Complete Proof_Char Proof_CharBank Proof_Type Proof_Rept Proof_FFTmath Proof_Kron Proof_CG Proof_CGdown Proof_CGvec1 Proof_CGvec2.
Import ListNotations.
Open Scope Z_scope.

Lemma aw_scale w f t (s : R) : (forall i g, In i w -> TT i g t = (s * g t)%R) -> aw TT w f t = (s ^ length w * f t)%R.
Proof.
  revert f. induction w as [|i w IH]; intros f H; [unfold aw; cbn; ring|]. rewrite aw_cons. rewrite IH by (intros; apply H; right; auto).
  rewrite H by (left; auto). cbn [length pow]. ring.
Qed.

Lemma TT_one i g t : del i t = 1 -> TT i g t = g t.
Proof. intros D. unfold TT. rewrite D. rewrite Sd_1 by auto. unfold Dd. change (IZR 1) with 1%R. lra. Qed.
Lemma TT_minus i g t : del i t = -1 -> TT i g t = (- 1 * g t)%R.
Proof. intros D. unfold TT. rewrite D. rewrite Sd_1 by auto. unfold Dd. replace (/ IZR (-1))%R with (-1)%R by (change (IZR (-1)) with (-1)%R; field). ring. Qed.

Lemma is_part_ones n : 1 <= n -> is_part n (repeat 1 (Z.to_nat n)).
Proof.
  intros Hn. split; [intros x Hx; apply repeat_spec in Hx; lia|]. split; [|rewrite zsum_repeat1; lia].
  clear. induction (Z.to_nat n) as [|k IH]; cbn [repeat]; [constructor|]. constructor; [auto|]. apply Forall_forall. intros x Hx. apply repeat_spec in Hx. lia.
Qed.

Lemma del_row n t i : 1 <= i < n -> standard [n] t -> del i t = 1.
Proof.
  intros Hi S. assert (is_part n [n]) as P by (apply is_part_row; lia).
  destruct (standard_pos n _ t i P S) as (r1 & c1 & C1 & E1 & D1); [lia|]. destruct (standard_pos n _ t (i + 1) P S) as (r2 & c2 & C2 & E2 & D2); [lia|].
  unfold del. rewrite D1, D2. destruct C1 as (A1 & B1), C2 as (A2 & B2). cbn [length] in A1, A2. assert (r1 = 0) by lia. assert (r2 = 0) by lia. subst.
  change (row [n] 0) with n in *. destruct S as (_ & _ & HR & _).
  assert (forall k a, 0 <= a -> a + Z.of_nat k < n -> entry t 0 a + Z.of_nat k <= entry t 0 (a + Z.of_nat k)) as M.
  { induction k as [|k IH]; intros a Ha Hk; [change (Z.of_nat 0) with 0; rewrite !Z.add_0_r; lia|]. specialize (IH a Ha ltac:(lia)).
    pose proof (HR 0 (a + Z.of_nat k)) as Q. assert (cell [n] 0 (a + Z.of_nat k)) as X by (split; [cbn [length]; lia|change (row [n] 0) with n; lia]). assert (cell [n] 0 (a + Z.of_nat k + 1)) as Y by (split; [cbn [length]; lia|change (row [n] 0) with n; lia]).
    specialize (Q X Y). replace (a + Z.of_nat (Datatypes.S k)) with (a + Z.of_nat k + 1) by lia. lia. }
  destruct (Z_lt_dec c1 c2).
  - pose proof (M (Z.to_nat (c2 - c1)) c1 ltac:(lia) ltac:(lia)) as Q. replace (c1 + Z.of_nat (Z.to_nat (c2 - c1))) with c2 in Q by lia. lia.
  - pose proof (M (Z.to_nat (c1 - c2)) c2 ltac:(lia) ltac:(lia)) as Q. replace (c2 + Z.of_nat (Z.to_nat (c1 - c2))) with c1 in Q by lia. lia.
Qed.

Lemma row_ones k r : 0 <= r < Z.of_nat k -> row (repeat 1 k) r = 1.
Proof. intros H. unfold row. rewrite (nth_indep _ 0 1) by (rewrite repeat_length; lia). apply nth_repeat. Qed.

Lemma cell_ones n r c : 1 <= n -> cell (repeat 1 (Z.to_nat n)) r c <-> 0 <= r < n /\ c = 0.
Proof.
  intros Hn. unfold cell. rewrite repeat_length. split.
  - intros (A & B). rewrite row_ones in B by lia. lia.
  - intros (A & ->). rewrite row_ones by lia. lia.
Qed.

Lemma del_col n t i : 1 <= i < n -> standard (repeat 1 (Z.to_nat n)) t -> del i t = -1.
Proof.
  intros Hi S. pose proof (is_part_ones n ltac:(lia)) as P.
  destruct (standard_pos n _ t i P S) as (r1 & c1 & C1 & E1 & D1); [lia|]. destruct (standard_pos n _ t (i + 1) P S) as (r2 & c2 & C2 & E2 & D2); [lia|].
  unfold del. rewrite D1, D2. apply cell_ones in C1, C2; try lia. destruct C1 as (A1 & ->), C2 as (A2 & ->). destruct S as (_ & _ & _ & HC).
  assert (forall k a, 0 <= a -> a + Z.of_nat k < n -> entry t a 0 + Z.of_nat k <= entry t (a + Z.of_nat k) 0) as M.
  { induction k as [|k IH]; intros a Ha Hk; [change (Z.of_nat 0) with 0; rewrite !Z.add_0_r; lia|]. specialize (IH a Ha ltac:(lia)).
    pose proof (HC (a + Z.of_nat k) 0 ltac:(apply cell_ones; lia) ltac:(apply cell_ones; lia)) as Q. replace (a + Z.of_nat (Datatypes.S k)) with (a + Z.of_nat k + 1) by lia. lia. }
  destruct (Z_lt_dec r1 r2).
  - pose proof (M (Z.to_nat (r2 - r1)) r1 ltac:(lia) ltac:(lia)) as Q. replace (r1 + Z.of_nat (Z.to_nat (r2 - r1))) with r2 in Q by lia. lia.
  - pose proof (M (Z.to_nat (r1 - r2)) r2 ltac:(lia) ltac:(lia)) as Q. replace (r2 + Z.of_nat (Z.to_nat (r1 - r2))) with r1 in Q by lia. lia.
Qed.

(* a shape in which i+1 always stands at the same distance from i has one tableau *)
Lemma one_tab n l s : 1 <= n -> is_part n l -> (forall t i, 1 <= i < n -> standard l t -> del i t = s) -> io_d (mkirr n l) = 1.
Proof.
  intros Hn P H. pose proof (dpos n l Hn P) as D. destruct (mkirr_ok n l P Hn) as (_ & G).
  destruct (Z_lt_dec 1 (io_d (mkirr n l))) as [L|]; [|lia]. exfalso.
  pose proof (tb_standard n l _ 0 G ltac:(lia)) as S0. pose proof (tb_standard n l _ 1 G ltac:(lia)) as S1.
  assert (forall t, standard l t -> forall k, Z.of_nat k < n -> cont t (1 + Z.of_nat k) = s * Z.of_nat k) as C.
  { intros t St. induction k as [|k IH]; intros Hk; [change (Z.of_nat 0) with 0; rewrite Z.add_0_r, (cont_one n l t P Hn St); lia|].
    pose proof (H t (1 + Z.of_nat k) ltac:(lia) St) as Q. unfold del in Q. replace (1 + Z.of_nat (Datatypes.S k)) with (1 + Z.of_nat k + 1) by lia. specialize (IH ltac:(lia)). nia. }
  destruct (contents_determine (Z.to_nat n) l l (tb (mkirr n l) 0) (tb (mkirr n l) 1)) as (_ & E); try rewrite Z2Nat.id by lia; auto.
  - intros v Hv. replace v with (1 + Z.of_nat (Z.to_nat (v - 1))) by lia. rewrite !C by (auto; lia). reflexivity.
  - pose proof (pos_tb n l _ 0 G ltac:(lia)) as Q0. pose proof (pos_tb n l _ 1 G ltac:(lia)) as Q1. rewrite E in Q0. lia.
Qed.

Lemma rr_one n l p (s : R) z : 1 <= n -> is_part n l -> is_perm n p -> (forall t i, 1 <= i < n -> standard l t -> del i t = z) -> (forall t i g, del i t = z -> TT i g t = (s * g t)%R) ->
  rr n l p 0 0 = (s ^ length (pword (Z.to_nat n) p))%R.
Proof.
  intros Hn P Pp H HT. pose proof (one_tab n l z Hn P H) as D1. destruct (mkirr_ok n l P Hn) as (_ & G).
  unfold rr, rho, Phi. rewrite (aw_scale _ _ _ s).
  - unfold fcol. rewrite (pos_tb n l _ 0 G) by (rewrite D1; lia). change (delta 0 0) with 1%R. ring.
  - intros i g Hi. apply HT. apply H; [apply (pword_in n p); auto|]. apply (tb_standard n l _ 0 G). rewrite D1. lia.
Qed.

Lemma rsum_one f : rsum 1 f = f 0.
Proof. unfold rsum. change (Z.to_nat 1) with 1%nat. cbn. ring. Qed.

Lemma chi_row n p : 1 <= n -> is_perm n p -> chi n [n] p = 1%R.
Proof.
  intros Hn Pp. pose proof (is_part_row n Hn) as P. unfold chi, trace. change (dd n [n]) with (io_d (mkirr n [n])). rewrite (one_tab n [n] 1 Hn P) by (intros; eapply del_row; eauto).
  rewrite rsum_one, (rr_one n [n] p 1 1 Hn P Pp).
  - apply pow1.
  - intros; eapply del_row; eauto.
  - intros; rewrite TT_one by auto; ring.
Qed.

Lemma kz_row n a b : 1 <= n -> is_part n a -> is_part n b -> kz n [n] a b = if pdec a b then 1 else 0.
Proof.
  intros Hn Pa Pb. assert (is_part n [n]) as P by (apply is_part_row; lia). apply eq_IZR. rewrite (proj1 (kz_ok n [n] a b ltac:(lia) P Pa Pb)). unfold kron.
  rewrite (lsum_ext _ _ (fun p => chi n a p * chi n b p)%R).
  - rewrite chi_orth by (auto; lia). pose proof (fact_pos n). destruct (pdec a b); field; lra.
  - intros p Hp. apply (all_perms_lists n ltac:(lia)) in Hp. rewrite chi_row by auto. ring.
Qed.

Lemma mult_with_trivial n a b : 1 <= n -> is_part n a -> is_part n b -> cg_mult n [n] a b (if list_eq_dec Z.eq_dec a b then 1 else 0).
Proof.
  intros Hn Pa Pb. apply cg_mult_kz; auto; [apply is_part_row; auto|]. rewrite kz_row by auto.
  destruct (list_eq_dec Z.eq_dec a b), (pdec a b); congruence.
Qed.
