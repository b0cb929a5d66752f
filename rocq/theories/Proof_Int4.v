(* The values of the characters are whole numbers. *)
From Coq Require Import ZArith List Bool Lia ZifyBool Permutation Reals Lra.
From Verif Require Import Model_Base Model_Sn Model_Perm Model_Part Model_Comb Model_Tab Model_Irrep Model_Class Model_Char.
From Verif Require Import Spec_Perm Spec_Part Spec_Tab Spec_Rep Spec_Four Spec_Char.
From Verif Require Import Proof_Base Proof_Perm Proof_PermProps Proof_Sn Proof_SnProps Proof_Part Proof_PartProps Proof_Tab Proof_TabProps Proof_Cycles Proof_Cox Proof_Yor Proof_Sum Proof_Irrep Proof_Rep Proof_Mat Proof_IrrepProps Proof_JM Proof_Conn Proof_Schur Proof_Restr Proof_UpDown Proof_Complete Proof_Char Proof_Kron Proof_FFTlay2 Proof_Hook Proof_CombBank Proof_CharBank Proof_CharTab Proof_Class3 Proof_Int1 Proof_Int2 Proof_Int3.
Import Model_Char ListNotations.
Open Scope Z_scope.

Lemma rep_perm n mu : 1 <= n -> ppos mu -> zsum mu = n -> is_perm n (rep_of n mu).
Proof. intros Hn P E. apply is_perm_pw; [lia|]. intros j Hj. apply (in_cw n mu 1 j); auto; lia. Qed.

Lemma img_rep n mu i : 1 <= n -> ppos mu -> zsum mu = n -> 1 <= i <= n -> img (rep_of n mu) i = bcyc 1 mu i.
Proof. intros Hn P E Hi. unfold rep_of, pw. rewrite aw_cw_perm by (auto; try lia; apply is_perm_pid; lia). rewrite img_pid by auto. auto. Qed.

Lemma bcyc_shift mu : forall a c v, ppos mu -> bcyc (a + c) mu (v + c) = bcyc a mu v + c.
Proof.
  induction mu as [|m mu IH]; intros a c v P; [reflexivity|]. cbn [bcyc]. pose proof (ppos_inv _ _ P) as (P1 & P2). rewrite <- IH by auto. replace (a + c + m) with (a + m + c) by lia. f_equal. unfold Proof_Cycles.cfun. zc.
Qed.

Lemma rep_one n : 1 <= n -> rep_of n [n] = pcyc n 1 n.
Proof.
  intros Hn. assert (ppos [n]) as P by (intros x [<-|[]]; auto). assert (zsum [n] = n) as E by (unfold zsum; cbn; lia).
  apply (perm_ext n); [apply is_perm_len; apply rep_perm; auto|apply is_perm_len; apply is_perm_pcyc; lia|]. intros i Hi. rewrite img_rep, img_pcyc by auto. cbn [bcyc]. f_equal. lia.
Qed.

Lemma rep_split m mu : ppos (m :: mu) -> mu <> [] -> rep_of (m + zsum mu) (m :: mu) = psum m (rep_of m [m]) (rep_of (zsum mu) mu).
Proof.
  intros P Ne. pose proof (ppos_inv _ _ P) as (P1 & P2). assert (1 <= zsum mu) as S1 by (destruct mu as [|x mu]; [contradiction|]; rewrite zsum_cons; pose proof (ppos_inv _ _ P2) as (Q1 & Q2); pose proof (zsum_ppos mu Q2); lia).
  assert (ppos [m]) as Pm by (intros x [<-|[]]; auto). assert (zsum [m] = m) as Em by (unfold zsum; cbn; lia).
  pose proof (rep_perm m [m] P1 Pm Em) as R1. pose proof (rep_perm (zsum mu) mu S1 P2 eq_refl) as R2. pose proof (rep_perm (m + zsum mu) (m :: mu) ltac:(lia) P (zsum_cons _ _)) as R.
  apply (perm_ext (m + zsum mu)); [apply is_perm_len; auto|apply is_perm_len; apply is_perm_psum; auto|]. intros i Hi. rewrite (img_psum m (zsum mu)) by auto. rewrite img_rep by (auto; try lia; apply zsum_cons). rewrite bcyc_cons by (auto; lia).
  destruct (Z.leb_spec i m); destruct (Z.ltb_spec i (1 + m)); try lia.
  - rewrite img_rep by (auto; lia). rewrite bcyc_cons by (auto; lia). destruct (Z.ltb_spec i (1 + m)); [auto|lia].
  - rewrite img_rep by (auto; lia). rewrite <- bcyc_shift by auto. f_equal. lia.
Qed.

Definition whole (x : R) : Prop := exists z, x = IZR z.
Lemma whole_plus x y : whole x -> whole y -> whole (x + y)%R. Proof. intros (a & ->) (b & ->). exists (a + b). symmetry. apply plus_IZR. Qed.
Lemma whole_mult x y : whole x -> whole y -> whole (x * y)%R. Proof. intros (a & ->) (b & ->). exists (a * b). symmetry. apply mult_IZR. Qed.
Lemma whole_lsum {A} (L : list A) f : (forall x, In x L -> whole (f x)) -> whole (lsum L f).
Proof. induction L as [|x L IH]; intros H; [exists 0; reflexivity|]. rewrite lsum_cons. apply whole_plus; [apply H; left; auto|apply IH; intros; apply H; right; auto]. Qed.

Lemma chi_whole mu : forall l, ppos mu -> mu <> [] -> is_part (zsum mu) l -> whole (chi (zsum mu) l (rep_of (zsum mu) mu)).
Proof.
  induction mu as [|m mu IH]; intros l P Ne Pl; [contradiction|]. pose proof (ppos_inv _ _ P) as (P1 & P2). destruct mu as [|m' mu].
  - replace (zsum [m]) with m in * by (unfold zsum; cbn; lia). rewrite rep_one by auto. rewrite chi_cycle by auto. eexists; reflexivity.
  - set (nu := m' :: mu) in *. assert (nu <> []) as N by discriminate. assert (1 <= zsum nu) as S1 by (unfold nu; rewrite zsum_cons; pose proof (ppos_inv _ _ P2) as (Q1 & Q2); pose proof (zsum_ppos mu Q2); lia).
    rewrite zsum_cons in *. rewrite rep_split by auto.
    assert (ppos [m]) as Pm by (intros x [<-|[]]; auto). assert (zsum [m] = m) as Em by (unfold zsum; cbn; lia).
    rewrite (chi_psum m (zsum nu) P1 S1) by (auto; apply rep_perm; auto).
    apply whole_lsum. intros r Hr. apply whole_lsum. intros v Hv.
    apply (in_pl m r P1) in Hr. apply (in_pl (zsum nu) v S1) in Hv.
    apply whole_mult; [|apply whole_mult; [|apply IH; auto]].
    + destruct (mult2_nat m (zsum nu) P1 S1 l r v) as (k & ->); auto. exists (Z.of_nat k). apply INR_IZR_INZ.
    + rewrite rep_one, chi_cycle by auto. eexists; reflexivity.
Qed.

Lemma cval_whole n l mu : 1 <= n -> is_part n l -> is_part n mu -> whole (cval n l mu).
Proof.
  intros Hn P Pm. unfold cval. pose proof (is_part_sum n mu Pm) as E. rewrite <- E in *. apply chi_whole; auto. - eapply is_part_ppos; eauto. - intros ->. cbn in Hn. lia.
Qed.

(* no larger than the dimension *)
Lemma rr_diag_le n l p i : 1 <= n -> is_part n l -> is_perm n p -> 0 <= i < dd n l -> (-1 <= rr n l p i i <= 1)%R.
Proof.
  intros Hn P Hp Hi. destruct (mkirr_ok n l P Hn) as (_ & G). pose proof (rho_orth n l _ G p i i Hp Hi Hi) as O. rewrite rsum_lsum in O. unfold delta in O. destruct (Z.eq_dec i i); [|contradiction].
  assert (rho n (mkirr n l) p i i * rho n (mkirr n l) p i i <= 1)%R as Q.
  { rewrite <- O. set (f := fun k => (rho n (mkirr n l) p k i * rho n (mkirr n l) p k i)%R). change (f i <= lsum (zrange 0 (dd n l)) f)%R. apply in_zrange in Hi. revert Hi. generalize (zrange 0 (dd n l)). intros L HL.
    assert (forall x, (0 <= f x)%R) as N by (intros x; unfold f; nra). clear - HL N. induction L as [|x L IH]; [destruct HL|]. rewrite lsum_cons. assert (0 <= lsum L f)%R by (clear - N; induction L as [|y L IH]; [rewrite lsum_nil; lra|rewrite lsum_cons; pose proof (N y); lra]). destruct HL as [->|HL]; [lra|]. specialize (IH HL). pose proof (N x). lra. }
  change (rr n l p i i) with (rho n (mkirr n l) p i i). nra.
Qed.

Lemma cval_bound n l mu : 1 <= n -> is_part n l -> is_part n mu -> (- IZR (dd n l) <= cval n l mu <= IZR (dd n l))%R.
Proof.
  intros Hn P Pm. pose proof (rep_of_perm n mu Hn Pm) as R. unfold cval, chi, trace. rewrite rsum_lsum.
  assert (0 <= dd n l) as D by (unfold io_d; apply zlen_nonneg).
  assert (forall L, (forall i, In i L -> 0 <= i < dd n l) -> (- IZR (zlen L) <= lsum L (fun i => rr n l (rep_of n mu) i i) <= IZR (zlen L))%R) as K.
  { induction L as [|x L IH]; intros H; [rewrite lsum_nil; cbn; lra|]. rewrite lsum_cons, zlen_cons, plus_IZR. specialize (IH (fun i Hi => H i (or_intror Hi))). pose proof (rr_diag_le n l (rep_of n mu) x Hn P R (H x (or_introl eq_refl))). lra. }
  specialize (K (zrange 0 (dd n l)) (fun i Hi => proj1 (in_zrange _ _ _) Hi)). rewrite zlen_zrange in K by lia. replace (Z.max 0 (dd n l - 0)) with (dd n l) in K by lia. exact K.
Qed.

(* ---- the statements ---- *)
Theorem character_whole n l o mu : 1 <= n -> is_part n l -> is_part n mu -> irr_new l = Ret o ->
  exists z, irr_character o mu = Ret (IZR z) /\ - io_d o <= z <= io_d o.
Proof.
  intros Hn P Pm Eo. destruct (mkirr_ok n l P Hn) as (E & _). rewrite Eo in E. apply Ret_inj in E. subst o. destruct (cval_whole n l mu Hn P Pm) as (z & Ez). exists z. rewrite irr_character_val by auto. rewrite Ez. split; auto.
  pose proof (cval_bound n l mu Hn P Pm) as B. rewrite Ez, <- opp_IZR in B. split; apply le_IZR; lra.
Qed.

Theorem table_whole n l f mu : 1 <= n -> is_part n l -> is_part n mu -> character_of n l f -> exists z, cf_atl f mu = Ret (IZR z).
Proof.
  intros Hn P Pm C. apply character_of_chr in C; auto. subst f. rewrite cf_atl_chr by auto. destruct (cval_whole n l mu Hn P Pm) as (z & ->). exists z. auto.
Qed.

Lemma hook_shape n l : is_part n l -> 1 <= n -> row l 1 <= 1 -> exists a b, l = a :: repeat 1 b.
Proof.
  intros P Hn H. destruct l as [|a t]; [destruct P as (_ & _ & E); cbn in E; lia|]. exists a, (length t). f_equal. assert (forall x, In x t -> x = 1) as A.
  { intros x Hx. apply (In_nth _ _ 0) in Hx as (k & Hk & <-). pose proof (hook_rows n (a :: t) (Z.of_nat k + 1) P H) as R. unfold row in R. replace (Z.to_nat (Z.of_nat k + 1)) with (S k) in R by lia. cbn [nth] in R. apply R. rewrite zlen_cons. unfold zlen. lia. }
  clear - A. induction t as [|x t IH]; [reflexivity|]. cbn [length repeat]. rewrite (A x) by (left; auto). f_equal. apply IH. intros; apply A; right; auto.
Qed.

Lemma is_part_n n : 1 <= n -> is_part n [n].
Proof. intros Hn. split; [intros x [<-|[]]; lia|]. split; [constructor; constructor|unfold zsum; cbn; lia]. Qed.

Theorem character_long_cycle n l o : 1 <= n -> is_part n l -> irr_new l = Ret o ->
  (forall a b, l = a :: repeat 1 b -> irr_character o [n] = Ret (if Nat.even b then 1 else -1)%R) /\
  ((forall a b, l <> a :: repeat 1 b) -> irr_character o [n] = Ret 0%R).
Proof.
  intros Hn P Eo. destruct (mkirr_ok n l P Hn) as (E & _). rewrite Eo in E. apply Ret_inj in E. subst o. rewrite (irr_character_val n l [n] Hn P (is_part_n n Hn)). unfold cval. rewrite rep_one, chi_cycle by auto. split.
  - intros a b ->. f_equal. unfold hsign. assert (row (a :: repeat 1 b) 1 <= 1) as R by (unfold row; change (Z.to_nat 1) with 1%nat; destruct b; cbn [nth repeat]; lia). destruct (Z.leb_spec (row (a :: repeat 1 b) 1) 1); [|lia]. rewrite zlen_cons. replace (zlen (repeat 1 b) + 1 - 1) with (Z.of_nat b) by (unfold zlen; rewrite repeat_length; lia).
    clear. assert (forall b, (-1) ^ Z.of_nat b = if Nat.even b then 1 else -1) as K. { clear b. induction b as [|b IH]; [reflexivity|]. rewrite Nat2Z.inj_succ, Z.pow_succ_r, IH by lia. rewrite Nat.even_succ, <- Nat.negb_even. destruct (Nat.even b); reflexivity. } rewrite K. destruct (Nat.even b); reflexivity.
  - intros H. f_equal. unfold hsign. destruct (Z.leb_spec (row l 1) 1) as [L|L]; [|reflexivity]. destruct (hook_shape n l P Hn L) as (a & b & E'). exfalso. apply (H a b E').
Qed.

Theorem matrix_trace_whole n l o p : 1 <= n -> is_part n l -> irr_new l = Ret o -> is_perm n p ->
  exists M z, irr_matrix o p = Ret M /\ trace (io_d o) (m_at M) = IZR z.
Proof.
  intros Hn P Eo Hp. destruct (type_exists n p Hp) as (mu & Pm & T). destruct (character_is_trace n l o p mu P Hn Eo Pm T) as (M & x & A & B & ->). destruct (character_whole n l o mu Hn P Pm Eo) as (z & C & _). rewrite B in C. apply Ret_inj in C. exists M, z. auto.
Qed.
