(* Learned products: multiplicities of small groups, commutation for S_3. *)
From Coq Require Import ZArith List Bool Lia Reals Lra Sorting.Sorted Permutation.
From Verif Require Import Model_Base Model_Perm Model_Sn Model_Part Model_Comb Model_Tab Model_Irrep Model_Type Model_FFT Model_Vec Model_Char Model_CG Model_CGvec Model_VecB Model_Prod Model_Learn.
From Verif Require Import Spec_Perm Spec_Part Spec_Tab Spec_Rep Spec_Four Spec_Type Spec_FFT Spec_Vec Spec_CG Spec_CGvec Spec_VecB Spec_Prod Spec_Learn.
From Verif Require Import Proof_Base Proof_Perm Proof_Sn Proof_Part Proof_PartProps Proof_Tab Proof_TabProps Proof_Cycles Proof_Cox Proof_Yor Proof_Sum Proof_Irrep Proof_Rep Proof_Mat Proof_IrrepProps Proof_JM Proof_Conn Proof_Schur Proof_Restr Proof_UpDown Proof_Complete Proof_Char Proof_CharBank Proof_Type Proof_Rept Proof_FFTmath Proof_FFTlay Proof_FFTlay2 Proof_FFTblk Proof_FFTstep Proof_Vec Proof_Vec2 Proof_Vec3 Proof_Vec4 Proof_Vec5 Proof_Vec6 Proof_Vec7 Proof_Vec8 Proof_Kron Proof_CG Proof_CGdown Proof_CGvec1 Proof_CGvec2 Proof_CGvec3 Proof_CGvec4 Proof_CGvec5 Proof_CGvec6 Proof_CGvec7 Proof_Prod Proof_Hook Proof_Isot Proof_View Proof_VecB Proof_VecB2 Proof_Learn1 Proof_Learn2 Proof_Learn3 Proof_Learn4 Proof_Learn5 Proof_Learn6 Proof_Learn7.
Import ListNotations.
Open Scope Z_scope.

(* ---- the trivial irrep ---- *)
Lemma aw_fix w f t : (forall i g, In i w -> TT i g t = g t) -> aw TT w f t = f t.
Proof. revert f. induction w as [|i w IH]; intros f H; [reflexivity|]. rewrite aw_cons. rewrite IH by (intros; apply H; right; auto). apply H. left; auto. Qed.

Lemma TT_one i g t : del i t = 1 -> TT i g t = g t.
Proof. intros D. unfold TT. rewrite D. rewrite Sd_1 by auto. unfold Dd. change (IZR 1) with 1%R. lra. Qed.

Lemma chi_row n p : 2 <= n <= 4 -> is_perm n p -> chi n [n] p = 1%R.
Proof.
  intros Hn Pp. assert (is_part n [n]) as P by (apply is_part_row; lia). destruct (mkirr_ok n [n] P ltac:(lia)) as (_ & G).
  assert (io_d (mkirr n [n]) = 1 /\ forall i, 1 <= i < n -> del i (tb (mkirr n [n]) 0) = 1) as (D1 & DL).
  { assert (n = 2 \/ n = 3 \/ n = 4) as [-> | [-> | ->]] by lia; (split; [vm_compute; reflexivity|]); intros i Hi; [assert (i = 1) as -> by lia|assert (i = 1 \/ i = 2) as [-> | ->] by lia|assert (i = 1 \/ i = 2 \/ i = 3) as [-> | [-> | ->]] by lia]; vm_compute; reflexivity. }
  unfold chi, trace. rewrite D1, rsum_1. unfold rr, rho, Phi. rewrite aw_fix.
  - unfold fcol. rewrite (pos_tb n [n] _ 0 G) by (rewrite D1; lia). apply delta_refl.
  - intros i g Hi. apply TT_one. apply DL. apply (pword_in n p); auto.
Qed.

Lemma kz_row n a b : 2 <= n <= 4 -> is_part n a -> is_part n b -> kz n [n] a b = if pdec a b then 1 else 0.
Proof.
  intros Hn Pa Pb. assert (is_part n [n]) as P by (apply is_part_row; lia). apply eq_IZR. rewrite (proj1 (kz_ok n [n] a b ltac:(lia) P Pa Pb)). unfold kron.
  rewrite (lsum_ext _ _ (fun p => chi n a p * chi n b p)%R).
  - rewrite chi_orth by (auto; lia). pose proof (fact_pos n). destruct (pdec a b); field; lra.
  - intros p Hp. apply (all_perms_lists n ltac:(lia)) in Hp. rewrite chi_row by auto. ring.
Qed.
Lemma kz_swap n a b c : kz n a b c = kz n b a c.
Proof. apply kz_perm. apply perm_swap. Qed.
Lemma kz_rot n a b c : kz n a b c = kz n c a b.
Proof. apply kz_perm. transitivity [a; c; b]; [constructor; apply perm_swap|apply perm_swap]. Qed.

Lemma p2 : is_part 2 [2]. Proof. apply decb_part; reflexivity. Qed.
Lemma p11 : is_part 2 [1; 1]. Proof. apply decb_part; reflexivity. Qed.
Lemma p3 : is_part 3 [3]. Proof. apply decb_part; reflexivity. Qed.
Lemma p21 : is_part 3 [2; 1]. Proof. apply decb_part; reflexivity. Qed.
Lemma p111 : is_part 3 [1; 1; 1]. Proof. apply decb_part; reflexivity. Qed.
Lemma p4 : is_part 4 [4]. Proof. apply decb_part; reflexivity. Qed.
Lemma p31 : is_part 4 [3; 1]. Proof. apply decb_part; reflexivity. Qed.
Lemma p22 : is_part 4 [2; 2]. Proof. apply decb_part; reflexivity. Qed.
Lemma p211 : is_part 4 [2; 1; 1]. Proof. apply decb_part; reflexivity. Qed.
Lemma p1111 : is_part 4 [1; 1; 1; 1]. Proof. apply decb_part; reflexivity. Qed.
Lemma parts_3 l : is_part 3 l -> l = [3] \/ l = [2; 1] \/ l = [1; 1; 1].
Proof. intros H. apply in_pl in H; [|lia]. vm_compute in H. intuition auto. Qed.
Lemma parts_4 l : is_part 4 l -> l = [4] \/ l = [3; 1] \/ l = [2; 2] \/ l = [2; 1; 1] \/ l = [1; 1; 1; 1].
Proof. intros H. apply in_pl in H; [|lia]. vm_compute in H. intuition auto. Qed.

Fixpoint leqb (a b : list Z) : bool :=
  match a, b with [], [] => true | x :: a', y :: b' => (x =? y) && leqb a' b' | _, _ => false end.
Lemma leqb_ok a : forall b, leqb a b = true <-> a = b.
Proof.
  induction a as [|x a IH]; intros [|y b]; cbn; split; try congruence; try discriminate.
  - intros H. apply andb_true_iff in H. destruct H as (A & B). apply Z.eqb_eq in A. apply IH in B. congruence.
  - intros H. injection H as <- <-. rewrite Z.eqb_refl. apply IH. reflexivity.
Qed.
Lemma isin_b mu l : isin mu l = existsb (leqb mu) l.
Proof.
  apply eq_true_iff_eq. rewrite isin_true, existsb_exists. split.
  - intros H. exists mu. split; [auto|]. apply leqb_ok. reflexivity.
  - intros (x & Hx & E). apply leqb_ok in E. subst. auto.
Qed.
Ltac pd H := repeat match type of H with context [pdec ?a ?b] => destruct (pdec a b); try discriminate; try congruence end.
Ltac kzr n a b mu Pa Pb Pm :=
  let H := fresh "H" in let x := fresh "x" in let y := fresh "y" in
  pose proof (kz_restrict n a b mu ltac:(lia) Pa Pb Pm) as H;
  set (x := belows a) in H; vm_compute in x; subst x;
  try (set (x := belows b) in H; vm_compute in x; subst x);
  rewrite (filter_ext _ (fun c => existsb (leqb mu) (belows c)) (fun c => isin_b mu (belows c))) in H;
  set (y := filter (fun c => existsb (leqb mu) (belows c)) (pl n)) in H; vm_compute in y; subst y;
  rewrite ?zsum_over_cons, ?zsum_over_nil in H; let m := eval vm_compute in (n - 1) in change (n - 1) with m in H.

Lemma kz2_111 : kz 2 [1; 1] [1; 1] [1; 1] = 0.
Proof.
  assert (is_part 1 [1]) as P1 by (apply decb_part; reflexivity). kzr 2 [1; 1] [1; 1] [1] p11 p11 P1. rewrite kz_one in *. rewrite (kz_rot 2 [1; 1] [1; 1] [2]), (kz_row 2 [1; 1] [1; 1] ltac:(lia) p11 p11) in H. pd H. lia.
Qed.

Lemma kz3_21 : kz 3 [2; 1] [2; 1] [2; 1] = 1.
Proof.
  kzr 3 [2; 1] [2; 1] [2] p21 p21 p2. rewrite (kz_rot 3 [2; 1] [2; 1] [3]), (kz_row 3 [2; 1] [2; 1] ltac:(lia) p21 p21) in H. rewrite (kz_rot 2 [1; 1] [1; 1] [2]), (kz_rot 2 [1; 1] [2] [2]) in H. rewrite !kz_row in H by (auto using p2, p11; lia). pd H. lia.
Qed.
Lemma kz3_111 : kz 3 [2; 1] [2; 1] [1; 1; 1] = 1.
Proof.
  kzr 3 [2; 1] [2; 1] [1; 1] p21 p21 p11. rewrite kz3_21, kz2_111 in H. rewrite (kz_swap 2 [1; 1] [2]) in H. rewrite !kz_row in H by (auto using p2, p11; lia). pd H. lia.
Qed.
Lemma kz3_le a b c : is_part 3 a -> is_part 3 b -> is_part 3 c -> kz 3 a b c <= 1.
Proof.
  assert (forall x y, is_part 3 x -> is_part 3 y -> kz 3 [3] x y <= 1) as T by (intros x y Px Py; rewrite kz_row by (auto; lia); destruct (pdec x y); lia).
  assert (kz 3 [1; 1; 1] [1; 1; 1] [2; 1] = 0) as A. { kzr 3 [1; 1; 1] [1; 1; 1] [2] p111 p111 p2. rewrite (kz_rot 3 [1; 1; 1] [1; 1; 1] [3]), (kz_rot 2 [1; 1] [1; 1] [2]) in H. rewrite !kz_row in H by (auto using p11, p111; lia). pd H. lia. }
  assert (kz 3 [1; 1; 1] [1; 1; 1] [1; 1; 1] = 0) as B. { kzr 3 [1; 1; 1] [1; 1; 1] [1; 1] p111 p111 p11. rewrite A, kz2_111 in H. lia. }
  intros Pa Pb Pc. pose proof kz3_21. pose proof kz3_111. destruct (parts_3 a Pa) as [-> |Ha]; [auto|]. destruct (parts_3 b Pb) as [-> |Hb]; [rewrite kz_swap; auto|]. destruct (parts_3 c Pc) as [-> |Hc]; [rewrite kz_rot; auto|].
  destruct Ha as [-> | ->], Hb as [-> | ->], Hc as [-> | ->]; try lia; try (rewrite kz_rot; lia); rewrite kz_rot, kz_rot; lia.
Qed.

Lemma kz4_31 : kz 4 [3; 1] [3; 1] [3; 1] = 1.
Proof.
  kzr 4 [3; 1] [3; 1] [3] p31 p31 p3. rewrite (kz_rot 4 [3; 1] [3; 1] [4]), (kz_row 4 [3; 1] [3; 1] ltac:(lia) p31 p31) in H. rewrite (kz_rot 3 [2; 1] [2; 1] [3]), (kz_rot 3 [2; 1] [3] [3]) in H. rewrite !kz_row in H by (auto using p3, p21; lia). pd H. lia.
Qed.
Lemma kz4_211 : kz 4 [3; 1] [3; 1] [2; 1; 1] = 1.
Proof.
  assert (kz 4 [3; 1] [3; 1] [1; 1; 1; 1] = 0) as Z.
  { rewrite (kz_rot 4 [3; 1] [3; 1] [1; 1; 1; 1]), (kz_swap 4 [1; 1; 1; 1]). kzr 4 [3; 1] [1; 1; 1; 1] [3] p31 p1111 p3. pose proof (kz_nonneg 4 [3; 1] [1; 1; 1; 1] [4] ltac:(lia) p31 p1111 p4). pose proof (kz_nonneg 4 [3; 1] [1; 1; 1; 1] [3; 1] ltac:(lia) p31 p1111 p31).
    rewrite (kz_rot 3 [2; 1] [1; 1; 1] [3]) in H. rewrite !kz_row in H by (auto using p3, p21, p111; lia). pd H. lia. }
  kzr 4 [3; 1] [3; 1] [1; 1; 1] p31 p31 p111. rewrite Z, kz3_111 in H. rewrite (kz_swap 3 [2; 1] [3]) in H. rewrite !kz_row in H by (auto using p3, p21, p111; lia). pd H. lia.
Qed.

(* ---- columns of irreps that occur once, in blocks that are aligned ---- *)

Lemma once_row F k l1 l2 e U Dv lam mu b : let n := Z.of_nat k + 2 in is_part n l1 -> is_part n l2 -> isotypic n (DD k l1 l2) (KK k l1 l2) (kz n l1 l2) e -> rowz F k -> orthN (n - 1) F ->
  (forall mu i i', is_part (n - 1) mu -> 0 <= i < WW n l1 l2 mu -> 0 <= i' < WW n l1 l2 mu -> rsum (WW n l1 l2 mu) (fun c => (U mu c i * U mu c i')%R) = delta i i') ->
  (forall mu c i, is_part (n - 1) mu -> 0 <= c < WW n l1 l2 mu -> 0 <= i < WW n l1 l2 mu -> rsum (WW n l1 l2 mu) (fun c' => (Mm F k l1 l2 mu c c' * U mu c' i)%R) = (U mu c i * Dv mu i)%R) ->
  occ k l1 l2 lam mu -> kz n l1 l2 lam = 1 -> mu = mu0 lam \/ aligned k lam mu = true -> 0 <= b < DD k l1 l2 ->
  rsum (WW n l1 l2 mu) (fun c => (Wv F k l1 l2 mu 0 c b * fin F k l1 l2 U Dv lam mu c 0)%R) = (Qm F k l1 l2 e U Dv lam (mu0 lam) 0 0 * e lam (boff n lam (rof lam mu)) 0%Z b)%R.
Proof.
  intros n P1 P2 He HR HO HU HD O K1 A Hb. fold n in K1. pose proof O as (P & _ & Hk). fold n in P, Hk.
  assert (forall c, fin F k l1 l2 U Dv lam mu c 0 = (raw k l1 l2 U Dv lam mu c 0 * Xm F k l1 l2 e U Dv lam mu 0 0)%R) as FX. { intros c. rewrite (fin_X F k l1 l2 P1 P2 e He HR HO U Dv HU HD lam mu c 0 O) by (fold n; lia). fold n. rewrite K1, rsum_1. reflexivity. }
  rewrite (rsum_ext _ _ (fun c => (Wv F k l1 l2 mu 0 c b * raw k l1 l2 U Dv lam mu c 0 * Xm F k l1 l2 e U Dv lam mu 0 0)%R)) by (intros; rewrite FX; ring). rewrite rsum_scal_r.
  pose proof (raw_e F k l1 l2 P1 P2 e He HR HO U Dv HU HD lam mu 0 b O) as RE. fold n in RE. rewrite RE by (auto; fold n; lia). rewrite K1, rsum_1. unfold Xm. fold n. destruct A as [-> |A].
  - replace (aligned k lam (mu0 lam)) with false; [rewrite delta_refl; ring|]. unfold aligned. destruct (pdec (mu0 lam) (mu0 lam)); congruence.
  - rewrite A, K1, rsum_1. pose proof (Q_cols F k l1 l2 P1 P2 e He HR HO U Dv HU HD lam mu 0 0 O) as QQ. fold n in QQ. rewrite K1, rsum_1, delta_refl in QQ. specialize (QQ ltac:(lia) ltac:(lia)).
    transitivity (Qm F k l1 l2 e U Dv lam mu 0 0 * Qm F k l1 l2 e U Dv lam mu 0 0 * (Qm F k l1 l2 e U Dv lam (mu0 lam) 0 0 * e lam (boff n lam (rof lam mu)) 0%Z b))%R; [ring|]. rewrite QQ. ring.
Qed.
