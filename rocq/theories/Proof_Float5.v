(* Rounded arithmetic: the multiplicities. *)
From Coq Require Import ZArith List Bool Lia ZifyBool Permutation Reals Lra.
From Verif Require Import Model_Base Model_Sn Model_Perm Model_Part Model_Comb Model_Tab Model_Irrep Model_Class Model_Type Model_Char Model_CG Model_Float.
From Verif Require Import Spec_Perm Spec_Part Spec_Tab Spec_Rep Spec_Four Spec_Type Spec_Char Spec_CG Spec_Float.
From Verif Require Import Proof_Base Proof_Perm Proof_Sn Proof_SnProps Proof_Part Proof_PartProps Proof_Tab Proof_TabProps Proof_Cycles Proof_Cox Proof_Yor Proof_Sum Proof_Irrep Proof_Rep Proof_Mat Proof_IrrepProps Proof_JM Proof_Conn Proof_Schur Proof_Restr Proof_UpDown Proof_Complete Proof_CombBank Proof_Map Proof_Type Proof_Rept Proof_Rept2 Proof_Char Proof_Class Proof_Class2 Proof_Class3 Proof_Kron Proof_Prune Proof_SnBank Proof_CharBank Proof_CG Proof_CGdown Proof_Int4.
From Verif Require Import Proof_Float1 Proof_Float2 Proof_Float3 Proof_Float4.
Import Model_Char ListNotations.
Open Scope R_scope.

(* ---- one term ---- *)

Lemma sq_abs a : Rabs a * Rabs a = a * a.
Proof. rewrite <- Rabs_mult. apply Rabs_pos_eq. nra. Qed.

Lemma prod3 x y z a b c E1 E2 E3 : Rabs (x - a) <= E1 -> Rabs (y - b) <= E2 -> Rabs (z - c) <= E3 ->
  Rabs (x * y * z - a * b * c) <= E1 * Rabs b * Rabs c + E2 * Rabs a * Rabs c + E3 * Rabs a * Rabs b + E1 * E2 * Rabs c + E1 * E3 * Rabs b + E2 * E3 * Rabs a + E1 * E2 * E3.
Proof.
  intros H1 H2 H3. set (p := x - a) in *. set (q := y - b) in *. set (r := z - c) in *.
  replace (x * y * z - a * b * c) with (p * b * c + q * a * c + r * a * b + p * q * c + p * r * b + q * r * a + p * q * r) by (unfold p, q, r; ring).
  pose proof (Rle_refl (Rabs a)). pose proof (Rle_refl (Rabs b)). pose proof (Rle_refl (Rabs c)).
  repeat apply abs_sum_le; repeat apply abs_mult_le; auto.
Qed.

Definition qq (a b c : R) : R := 1 + a * a + b * b + c * c.

Lemma qq_one a b c : 1 <= qq a b c. Proof. unfold qq. nra. Qed.
Lemma abs2_qq a b c : Rabs a * Rabs b <= qq a b c / 2 /\ Rabs a * Rabs c <= qq a b c / 2 /\ Rabs b * Rabs c <= qq a b c / 2.
Proof. unfold qq. pose proof (sq_abs a). pose proof (sq_abs b). pose proof (sq_abs c). rewrite <- H, <- H0, <- H1. generalize (Rabs a) (Rabs b) (Rabs c). intros x y z. pose proof (Rle_0_sqr (x - y)). pose proof (Rle_0_sqr (x - z)). pose proof (Rle_0_sqr (y - z)). pose proof (Rle_0_sqr x). pose proof (Rle_0_sqr y). pose proof (Rle_0_sqr z). unfold Rsqr in *. lra. Qed.
Lemma abs1_qq a b c : Rabs a <= qq a b c / 2 /\ Rabs b <= qq a b c / 2 /\ Rabs c <= qq a b c / 2.
Proof. unfold qq. pose proof (sq_abs a). pose proof (sq_abs b). pose proof (sq_abs c). rewrite <- H, <- H0, <- H1. generalize (Rabs a) (Rabs b) (Rabs c). intros x y z. pose proof (Rle_0_sqr (x - 1)). pose proof (Rle_0_sqr (y - 1)). pose proof (Rle_0_sqr (z - 1)). pose proof (Rle_0_sqr x). pose proof (Rle_0_sqr y). pose proof (Rle_0_sqr z). unfold Rsqr in *. lra. Qed.

Lemma prod3_qq x y z a b c E1 E2 E3 : Rabs (x - a) <= E1 -> Rabs (y - b) <= E2 -> Rabs (z - c) <= E3 -> E1 + E2 + E3 <= / 4 ->
  Rabs (x * y * z - a * b * c) <= (E1 + E2 + E3) * qq a b c.
Proof.
  intros H1 H2 H3 H. eapply Rle_trans; [apply prod3; eauto|]. pose proof (Rabs_pos (x - a)). pose proof (Rabs_pos (y - b)). pose proof (Rabs_pos (z - c)).
  destruct (abs2_qq a b c) as (P1 & P2 & P3). destruct (abs1_qq a b c) as (Q1 & Q2 & Q3). pose proof (qq_one a b c) as Q0. set (Q := qq a b c) in *.
  assert (E1 * Rabs b * Rabs c <= E1 * (Q / 2)) by (rewrite Rmult_assoc; apply Rmult_le_compat_l; lra).
  assert (E2 * Rabs a * Rabs c <= E2 * (Q / 2)) by (rewrite Rmult_assoc; apply Rmult_le_compat_l; lra).
  assert (E3 * Rabs a * Rabs b <= E3 * (Q / 2)) by (rewrite Rmult_assoc; apply Rmult_le_compat_l; lra).
  assert (E1 * E2 <= E1 * / 4) as F1 by (apply Rmult_le_compat_l; lra). assert (E1 * E3 <= / 4 * E3) as F2 by (apply Rmult_le_compat_r; lra). assert (E2 * E3 <= E2 * / 4) as F3 by (apply Rmult_le_compat_l; lra).
  assert (0 <= E1 * E2) by (apply Rmult_le_pos; lra). assert (0 <= E1 * E3) by (apply Rmult_le_pos; lra). assert (0 <= E2 * E3) by (apply Rmult_le_pos; lra).
  assert (E1 * E2 * Rabs c <= (E1 * / 4) * (Q / 2)) by (apply Rmult_le_compat; auto; apply Rabs_pos).
  assert (E1 * E3 * Rabs b <= (/ 4 * E3) * (Q / 2)) by (apply Rmult_le_compat; auto; apply Rabs_pos).
  assert (E2 * E3 * Rabs a <= (E2 * / 4) * (Q / 2)) by (apply Rmult_le_compat; auto; apply Rabs_pos).
  assert (E1 * E2 * E3 <= (E1 * / 4) * (Q / 4)) by (apply Rmult_le_compat; lra).
  assert (0 <= E1 * Q) by (apply Rmult_le_pos; lra). assert (0 <= E2 * Q) by (apply Rmult_le_pos; lra). assert (0 <= E3 * Q) by (apply Rmult_le_pos; lra). lra.
Qed.

Section Term.
  Variables (F : arith) (fval : fl F -> option R) (dval : db F -> option R) (u v e B : R).
  Hypothesis Hr : rounded F fval dval u v e B.
  Hypothesis Hu : 0 <= u <= / 1000.
  Hypothesis He : 0 <= e <= u.

  Lemma term_err K a b c E1 E2 E3 fx fy fz' s x y z : fval fx = Some x -> fval fy = Some y -> fval fz' = Some z -> Rabs (x - a) <= E1 -> Rabs (y - b) <= E2 -> Rabs (z - c) <= E3 ->
    E1 + E2 + E3 <= / 4 -> 3 <= K -> Rabs a <= K -> 1 <= IZR s -> 4 * K * qq a b c * IZR s <= B ->
    exists t, fval (fmul F (fmul F (fmul F fx fy) fz') (fz F s)) = Some t /\ Rabs (t - a * b * c * IZR s) <= ((E1 + E2 + E3) + 14 * u * K) * (qq a b c * IZR s) /\ Rabs (a * b * c * IZR s) <= K * (qq a b c * IZR s) / 2.
  Proof.
    intros Vx Vy Vz H1 H2 H3 H HK Ha Hs HB.
    pose proof (prod3_qq x y z a b c E1 E2 E3 H1 H2 H3 H) as P3. pose proof (Rabs_pos (x - a)). pose proof (Rabs_pos (y - b)). pose proof (Rabs_pos (z - c)).
    destruct (abs2_qq a b c) as (P1 & P2 & P4). destruct (abs1_qq a b c) as (Q1 & Q2 & Q3). pose proof (qq_one a b c) as Q0. set (Q := qq a b c) in *. set (S := IZR s) in *.
    assert (Rabs (a * b * c) <= K * Q / 2) as T0. { rewrite Rmult_assoc, Rabs_mult, (Rabs_mult b c). assert (Rabs a * (Rabs b * Rabs c) <= K * (Q / 2)); [|lra]. apply Rmult_le_compat; auto; [apply Rabs_pos|]. apply Rmult_le_pos; apply Rabs_pos. }
    assert (3 * Q <= K * Q) as KQ by (apply Rmult_le_compat_r; lra).
    assert ((E1 + E2 + E3) * Q <= / 4 * Q) as HQ by (apply Rmult_le_compat_r; lra).
    assert (Rabs (x * y * z) <= K * Q) as T1. { replace (x * y * z) with ((x * y * z - a * b * c) + a * b * c) by ring. eapply Rle_trans; [apply Rabs_triang|]. lra. }
    assert (K * Q <= K * Q * S) as KS by (rewrite <- (Rmult_1_r (K * Q)) at 1; apply Rmult_le_compat_l; lra).
    assert (4 * K * Q * S = 4 * (K * Q * S)) as EB by ring. rewrite EB in HB.
    assert (Rabs z <= Q) as Bz. { replace z with ((z - c) + c) by ring. eapply Rle_trans; [apply Rabs_triang|]. lra. }
    assert (Rabs (x * y) <= Q) as Bxy.
    { replace (x * y) with ((x - a) * (y - b) + (x - a) * b + a * (y - b) + a * b) by ring.
      assert (Rabs ((x - a) * (y - b)) <= / 4 * / 4) by (apply abs_mult_le; lra). assert (Rabs ((x - a) * b) <= / 4 * (Q / 2)) by (apply abs_mult_le; lra). assert (Rabs (a * (y - b)) <= Q / 2 * / 4) by (apply abs_mult_le; lra).
      assert (Rabs (a * b) <= Q / 2) by (rewrite Rabs_mult; auto). eapply Rle_trans; [repeat apply abs_sum_le; eassumption|]. lra. }
    destruct (r_fmul _ _ _ _ _ _ _ Hr fx fy x y Vx Vy) as (p & Vp & Cp); [lra|]. unfold close in Cp.
    assert (0 <= u * (K * Q)) as UK by (apply Rmult_le_pos; lra).
    assert (e * Q <= u * (K * Q)) as EQ. { apply Rmult_le_compat; lra. }
    assert (e <= u * (K * Q)) as EQ1. { assert (e * 1 <= e * Q) by (apply Rmult_le_compat_l; lra). lra. }
    assert (u * (K * Q) <= K * Q / 1000) as UK2. { assert (u * (K * Q) <= / 1000 * (K * Q)) by (apply Rmult_le_compat_r; lra). lra. }
    assert (Rabs (p * z - x * y * z) <= 2 * (u * (K * Q))) as D1.
    { replace (p * z - x * y * z) with ((p - x * y) * z) by ring. rewrite Rabs_mult. assert (Rabs (p - x * y) * Rabs z <= (u * Rabs (x * y) + e) * Rabs z) by (apply Rmult_le_compat_r; [apply Rabs_pos|auto]).
      assert (u * Rabs (x * y * z) <= u * (K * Q)) as Y1 by (apply Rmult_le_compat_l; lra). rewrite Rabs_mult in Y1. assert (e * Rabs z <= e * Q) by (apply Rmult_le_compat_l; lra). lra. }
    assert (Rabs (p * z) <= 1.1 * (K * Q)) as Bpz. { replace (p * z) with ((p * z - x * y * z) + x * y * z) by ring. eapply Rle_trans; [apply Rabs_triang|]. lra. }
    destruct (r_fmul _ _ _ _ _ _ _ Hr _ fz' p z Vp Vz) as (q & Vq & Cq); [lra|]. unfold close in Cq.
    assert (Rabs (q - p * z) <= 3 * (u * (K * Q))) as D2. { assert (u * Rabs (p * z) <= u * (1.1 * (K * Q))) by (apply Rmult_le_compat_l; lra). lra. }
    assert (Rabs (q - x * y * z) <= 5 * (u * (K * Q))) as D3. { replace (q - x * y * z) with ((q - p * z) + (p * z - x * y * z)) by ring. eapply Rle_trans; [apply Rabs_triang|]. lra. }
    assert (Rabs q <= 2 * (K * Q)) as Bq. { replace q with ((q - x * y * z) + x * y * z) by ring. eapply Rle_trans; [apply Rabs_triang|]. lra. }
    assert (S <= K * Q * S) as SB. { rewrite <- (Rmult_1_l S) at 1. apply Rmult_le_compat_r; lra. }
    destruct (r_fz _ _ _ _ _ _ _ Hr s) as (s' & Vs & Cs). { rewrite Rabs_pos_eq by (fold S; lra). fold S. lra. }
    unfold close in Cs. fold S in Cs. rewrite (Rabs_pos_eq S) in Cs by lra.
    assert (Rabs (s' - S) <= 2 * u * S) as D4. { assert (u * 1 <= u * S) by (apply Rmult_le_compat_l; lra). lra. }
    assert (2 * u * S <= S / 2) as US. { assert (u * S <= / 1000 * S) by (apply Rmult_le_compat_r; lra). lra. }
    assert (Rabs s' <= 1.5 * S) as Bs. { replace s' with ((s' - S) + S) by ring. eapply Rle_trans; [apply Rabs_triang|]. rewrite (Rabs_pos_eq S) by lra. lra. }
    assert (Rabs (q * s') <= 2 * (K * Q) * (1.5 * S)) as Bqs by (apply abs_mult_le; auto).
    destruct (r_fmul _ _ _ _ _ _ _ Hr _ (fz F s) q s' Vq Vs) as (t & Vt & Ct). { lra. }
    unfold close in Ct. exists t. split; [exact Vt|].
    set (W := u * (K * Q) * S). assert (0 <= W) by (apply Rmult_le_pos; lra).
    assert (e <= W) as EW. { assert (u * (K * Q) * 1 <= u * (K * Q) * S) by (apply Rmult_le_compat_l; lra). unfold W. lra. }
    assert (u * Rabs (q * s') <= 3 * W) as D5. { assert (u * Rabs (q * s') <= u * (2 * (K * Q) * (1.5 * S))) as Y2 by (apply Rmult_le_compat_l; lra). replace (u * (2 * (K * Q) * (1.5 * S))) with (3 * W) in Y2 by (unfold W; lra). lra. }
    assert (Rabs (q * s' - q * S) <= 4 * W) as D6. { replace (q * s' - q * S) with (q * (s' - S)) by ring. assert (Rabs (q * (s' - S)) <= 2 * (K * Q) * (2 * u * S)) as Y3 by (apply abs_mult_le; auto). replace (2 * (K * Q) * (2 * u * S)) with (4 * W) in Y3 by (unfold W; ring). auto. }
    assert (Rabs (q * S - x * y * z * S) <= 5 * W) as D7. { replace (q * S - x * y * z * S) with ((q - x * y * z) * S) by ring. rewrite Rabs_mult, (Rabs_pos_eq S) by lra. assert (Rabs (q - x * y * z) * S <= 5 * (u * (K * Q)) * S) by (apply Rmult_le_compat_r; lra). unfold W. lra. }
    assert (Rabs (x * y * z * S - a * b * c * S) <= (E1 + E2 + E3) * Q * S) as D8. { replace (x * y * z * S - a * b * c * S) with ((x * y * z - a * b * c) * S) by ring. rewrite Rabs_mult, (Rabs_pos_eq S) by lra. apply Rmult_le_compat_r; lra. }
    split.
    - replace (t - a * b * c * S) with ((t - q * s') + (q * s' - q * S) + (q * S - x * y * z * S) + (x * y * z * S - a * b * c * S)) by ring.
      assert (Rabs (t - q * s') <= 4 * W) by lra. eapply Rle_trans; [apply abs_sum_le; [apply abs_sum_le; [apply abs_sum_le|]|]; eassumption|].
      replace ((E1 + E2 + E3 + 14 * u * K) * (Q * S)) with ((E1 + E2 + E3) * Q * S + 14 * W) by (unfold W; ring). lra.
    - rewrite Rabs_mult, (Rabs_pos_eq S) by lra. assert (Rabs (a * b * c) * S <= (K * Q / 2) * S) by (apply Rmult_le_compat_r; lra). lra.
  Qed.
End Term.

(* ---- the sum over the classes ---- *)

Lemma csz_pos n mu : (1 <= n)%Z -> is_part n mu -> (1 <= csz n mu <= zfact n)%Z.
Proof.
  intros Hn P. unfold csz. destruct (class_size_ok n mu P Hn) as (K & _ & _ & -> & E). pose proof (zzz_pos mu (is_part_ppos n mu P)). pose proof (zfact_pos n). nia.
Qed.

Lemma class_squares n a : (1 <= n)%Z -> is_part n a -> lsum (pl n) (fun mu => cval n a mu * cval n a mu * IZR (csz n mu)) = IZR (zfact n).
Proof.
  intros Hn P. rewrite <- (class_sum n (fun p => chi n a p * chi n a p) (fun mu => cval n a mu * cval n a mu) (csz n)).
  - rewrite chi_orth by auto. destruct (pdec a a); congruence.
  - auto.
  - intros mu p Pm T. rewrite (chi_type n a mu p) by auto. reflexivity.
  - intros mu Pm. apply csz_ok; auto.
Qed.

Lemma class_ones n : (1 <= n)%Z -> lsum (pl n) (fun mu => IZR (csz n mu)) = IZR (zfact n).
Proof.
  intros Hn. rewrite (lsum_ext _ _ (fun mu => 1 * IZR (csz n mu))) by (intros; ring). rewrite <- (class_sum n (fun p => 1) (fun mu => 1) (csz n)).
  - rewrite lsum_const. change (Z.of_nat (length (all_perms n))) with (zlen (all_perms n)). rewrite (lists_Sn_len n) by (try apply all_perms_lists; lia). ring.
  - auto.
  - auto.
  - intros mu Pm. apply csz_ok; auto.
Qed.

Definition qs (n : Z) (a b c mu : list Z) : R := qq (cval n a mu) (cval n b mu) (cval n c mu) * IZR (csz n mu).

Lemma class_qs n a b c : (1 <= n)%Z -> is_part n a -> is_part n b -> is_part n c -> lsum (pl n) (qs n a b c) = 4 * IZR (zfact n).
Proof.
  intros Hn Pa Pb Pc. rewrite (lsum_ext _ _ (fun mu => IZR (csz n mu) + cval n a mu * cval n a mu * IZR (csz n mu) + cval n b mu * cval n b mu * IZR (csz n mu) + cval n c mu * cval n c mu * IZR (csz n mu))).
  - rewrite !lsum_plus, class_ones, !class_squares by auto. ring.
  - intros mu _. unfold qs, qq. ring.
Qed.

Lemma lsum_firstn_le {A} (L : list A) f k : (forall x, In x L -> 0 <= f x) -> 0 <= lsum (firstn k L) f <= lsum L f.
Proof.
  revert k. induction L as [|x L IH]; intros k H; [rewrite firstn_nil; change (lsum [] f) with 0; lra|]. destruct k as [|k]; cbn [firstn].
  - split; [apply Rle_refl|]. apply lsum_nonneg. auto.
  - rewrite !lsum_cons. pose proof (H x ltac:(left; auto)). destruct (IH k ltac:(intros; apply H; right; auto)). lra.
Qed.

Lemma in_zlen {A} (x : A) L : In x L -> (1 <= zlen L)%Z.
Proof. destruct L; [intros []|]. intros _. rewrite zlen_cons. pose proof (zlen_nonneg L). lia. Qed.

Section Coeff.
  Variables (F : arith) (fval : fl F -> option R) (dval : db F -> option R) (u v e B : R).
  Hypothesis Hr : rounded F fval dval u v e B.
  Hypothesis Hu : 0 <= u <= / 1000.
  Hypothesis He : 0 <= e <= u.
  Variables (n : Z) (l1 l2 l3 : list Z) (E1 E2 E3 K : R).
  Hypothesis Hn : (1 <= n)%Z.
  Hypothesis P1 : is_part n l1.
  Hypothesis P2 : is_part n l2.
  Hypothesis P3 : is_part n l3.
  Hypothesis HE : E1 + E2 + E3 <= / 4.
  Hypothesis HK : 3 <= K.
  Hypothesis K1 : IZR (dd n l1) <= K.
  Hypothesis K2 : IZR (dd n l2) <= K.
  Hypothesis K3 : IZR (dd n l3) <= K.

  (* v holds the values of the character of l, with errors at most E *)
  Definition near_values (l : list Z) (E : R) (w : list (fl F)) : Prop := zlen w = zlen (pl n) /\
    forall i, (0 <= i < zlen (pl n))%Z -> exists x, fval (znth w i (fz F 0)) = Some x /\ Rabs (x - cval n l (znth (pl n) i [])) <= E.

  Let nf := IZR (zfact n).
  Let N := IZR (zlen (pl n)).
  Let h := (E1 + E2 + E3) + 14 * u * K.
  (* the error of the multiplicity *)
  Definition merr : R := 16 * (E1 + E2 + E3) + (12 * N + 234) * u * K.

  Lemma cval_abs l mu : is_part n l -> is_part n mu -> Rabs (cval n l mu) <= IZR (dd n l).
  Proof. intros P Pm. apply Rabs_le. apply cval_bound; auto. Qed.

  Lemma qs_nonneg mu : In mu (pl n) -> 0 <= qs n l1 l2 l3 mu.
  Proof. intros Hm. apply in_pl in Hm; auto. unfold qs. apply Rmult_le_pos; [pose proof (qq_one (cval n l1 mu) (cval n l2 mu) (cval n l3 mu)); lra|]. apply IZR_le. pose proof (csz_pos n mu Hn Hm). lia. Qed.

  Lemma qs_bound mu : is_part n mu -> qs n l1 l2 l3 mu <= 4 * (K * K * nf).
  Proof.
    intros Pm. unfold qs. assert (forall l, is_part n l -> IZR (dd n l) <= K -> cval n l mu * cval n l mu <= K * K) as Q.
    { intros l P D. rewrite <- sq_abs. pose proof (cval_abs l mu P Pm). pose proof (Rabs_pos (cval n l mu)). apply Rmult_le_compat; lra. }
    pose proof (Q l1 P1 K1). pose proof (Q l2 P2 K2). pose proof (Q l3 P3 K3). pose proof (csz_pos n mu Hn Pm) as (C1 & C2). apply IZR_le in C1, C2. fold nf in C2.
    assert (3 * 3 <= K * K) by (apply Rmult_le_compat; lra). assert (qq (cval n l1 mu) (cval n l2 mu) (cval n l3 mu) * IZR (csz n mu) <= 4 * (K * K) * nf); [|lra].
    apply Rmult_le_compat; auto; [pose proof (qq_one (cval n l1 mu) (cval n l2 mu) (cval n l3 mu)); lra|lra|]. unfold qq. lra.
  Qed.

  Lemma f_coeff_of_ok w1 w2 w3 : near_values l1 E1 w1 -> near_values l2 E2 w2 -> near_values l3 E3 w3 -> 20 * K * (K * K * nf) <= B -> 2 * K <= IZR (2 ^ 29) -> merr < 1 ->
    f_coeff_of F n w1 w2 w3 = Ret (kz n l1 l2 l3) \/ (1 <= kz n l1 l2 l3)%Z /\ f_coeff_of F n w1 w2 w3 = Ret (kz n l1 l2 l3 - 1)%Z.
  Proof.
    intros (L1 & V1) (L2 & V2) (L3 & V3) HB HK2 HM. pose proof (zlen_nonneg (pl n)) as Z0. pose proof (IZR_le _ _ Z0) as N0. fold N in N0.
    assert (1 <= nf) as F1 by (unfold nf; apply IZR_le; pose proof (zfact_pos n); lia).
    assert (exists mu, In mu (pl n)) as (mu0 & Im0) by (exists l1; apply in_pl; auto). assert (1 <= N) as N1. { unfold N. apply IZR_le. apply (in_zlen _ _ Im0). }
    assert (0 <= E1 + E2 + E3) as E0.
    { destruct (V1 0%Z) as (x1 & _ & D1). { split; [lia|]. apply lt_IZR. fold N. lra. } destruct (V2 0%Z) as (x2 & _ & D2). { split; [lia|]. apply lt_IZR. fold N. lra. } destruct (V3 0%Z) as (x3 & _ & D3). { split; [lia|]. apply lt_IZR. fold N. lra. }
      pose proof (Rabs_pos (x1 - cval n l1 (znth (pl n) 0 []))). pose proof (Rabs_pos (x2 - cval n l2 (znth (pl n) 0 []))). pose proof (Rabs_pos (x3 - cval n l3 (znth (pl n) 0 []))). lra. }
    assert (0 <= u * K) as UK by (apply Rmult_le_pos; lra). assert (u * K <= K / 1000) as UK2. { assert (u * K <= / 1000 * K) by (apply Rmult_le_compat_r; lra). lra. }
    assert (u * 3 <= u * K) as UK3 by (apply Rmult_le_compat_l; lra).
    assert (0 <= N * (u * K)) as NUK by (apply Rmult_le_pos; lra). assert (merr = 16 * (E1 + E2 + E3) + 12 * (N * (u * K)) + 234 * (u * K)) as EM by (unfold merr; ring).
    assert (4 * (N * u) <= 1) as NU. { assert (N * (u * 3) <= N * (u * K)) by (apply Rmult_le_compat_l; lra). lra. }
    assert (0 <= h) as H0 by (unfold h; lra). assert (8 * h <= 1.5 * K) as H8 by (unfold h; lra).
    set (cc := 3 * (u * K) * nf). assert (0 <= cc) as C0 by (unfold cc; apply Rmult_le_pos; lra).
    assert (1 * 1 <= K * nf) as KN by (apply Rmult_le_compat; lra). assert (e <= u * K * nf) as EC. { assert (u * K * 1 <= u * K * nf) by (apply Rmult_le_compat_l; lra). lra. }
    set (g := fun mu => cval n l1 mu * cval n l2 mu * cval n l3 mu * IZR (csz n mu)).
    assert (forall k, 0 <= lsum (firstn k (pl n)) (qs n l1 l2 l3) <= 4 * nf) as QB. { intros k. unfold nf. rewrite <- (class_qs n l1 l2 l3) by auto. apply lsum_firstn_le. apply qs_nonneg. }
    assert (K * nf <= K * K * nf) as KB. { rewrite Rmult_assoc. rewrite <- (Rmult_1_l (K * nf)) at 1. apply Rmult_le_compat_r; lra. }
    assert (2 * (h * (4 * nf) + N * cc) <= 4 * (K * nf)) as ZB. { assert (8 * h * nf <= 1.5 * K * nf) by (apply Rmult_le_compat_r; lra). assert (N * (u * K) * nf <= K * nf / 4). { assert (N * u * (K * nf) <= / 4 * (K * nf)) by (apply Rmult_le_compat_r; lra). lra. } unfold cc. lra. }
    unfold f_coeff_of. rewrite L1.
    match goal with |- context [zfor 0 ?M ?body ?t0] => destruct (zfor_inv (fun i t => exists x, fval t = Some x /\ Rabs (x - lsum (firstn (Z.to_nat i) (pl n)) g) <= 2 * (h * lsum (firstn (Z.to_nat i) (pl n)) (qs n l1 l2 l3) + IZR i * cc) /\
       Rabs (lsum (firstn (Z.to_nat i) (pl n)) g) <= K * lsum (firstn (Z.to_nat i) (pl n)) (qs n l1 l2 l3) / 2) 0 M body t0) as (t & Et & x & Vx & Dx & Bx); [lia| | |] end.
    { exists 0. split; [apply (r_fz_exact _ _ _ _ _ _ _ Hr 0); lia|]. cbn [Z.to_nat firstn]. change (lsum [] g) with 0. change (lsum [] (qs n l1 l2 l3)) with 0. rewrite Rminus_0_r, Rabs_R0. lra. }
    { intros i t Hi (x & Vx & Dx & Bx). destruct (V1 i Hi) as (x1 & Vx1 & D1). destruct (V2 i Hi) as (x2 & Vx2 & D2). destruct (V3 i Hi) as (x3 & Vx3 & D3).
      rewrite (rd_ok w1 i (fz F 0)), (rd_ok w2 i (fz F 0)), (rd_ok w3 i (fz F 0)) by lia. cbn [bind]. rewrite cclass_ok by auto. cbn [bind]. pose proof (znth_pl n i Hn Hi) as Pm. rewrite csz_ok by auto. cbn [bind].
      eexists. split; [reflexivity|]. pose proof (QB (Z.to_nat (i + 1))) as QB'. rewrite (firstn_znth _ i []) in * by auto. rewrite !lsum_app, !lsum_cons in *. set (mu := znth (pl n) i []) in *. change (lsum [] g) with 0 in *. change (lsum [] (qs n l1 l2 l3)) with 0 in *.
      set (S := lsum (firstn (Z.to_nat i) (pl n)) g) in *. set (P := lsum (firstn (Z.to_nat i) (pl n)) (qs n l1 l2 l3)) in *. pose proof (QB (Z.to_nat i)) as QBi. fold P in QBi.
      pose proof (csz_pos n mu Hn Pm) as (C1 & C2). apply IZR_le in C1.
      destruct (term_err F fval dval u v e B Hr Hu He K (cval n l1 mu) (cval n l2 mu) (cval n l3 mu) E1 E2 E3 (znth w1 i (fz F 0)) (znth w2 i (fz F 0)) (znth w3 i (fz F 0)) (csz n mu) x1 x2 x3 Vx1 Vx2 Vx3 D1 D2 D3 HE HK) as (c & Vc & Dc & Bc).
      { eapply Rle_trans; [apply cval_abs; auto|auto]. }
      { lra. }
      { pose proof (qs_bound mu Pm) as Q. unfold qs in Q. apply (Rmult_le_compat_l (4 * K)) in Q; [|lra]. apply Rle_trans with (4 * K * (4 * (K * K * nf))); [lra|]. assert (0 <= K * (K * K * nf)); [|lra]. apply Rmult_le_pos; [lra|]. apply Rmult_le_pos; [|lra]. apply Rmult_le_pos; lra. }
      fold h in Dc. fold (qs n l1 l2 l3 mu) in Dc, Bc. change (cval n l1 mu * cval n l2 mu * cval n l3 mu * IZR (csz n mu)) with (g mu) in Dc, Bc. set (q := qs n l1 l2 l3 mu) in *. fold q in QB'.
      assert (0 <= q) as q0. { apply qs_nonneg. apply znth_In; auto. }
      assert (0 <= IZR i <= N - 1) as Ri. { split; [apply IZR_le; lia|]. unfold N. rewrite <- minus_IZR. apply IZR_le. lia. }
      assert (0 <= h * q) as hq0 by (apply Rmult_le_pos; lra). assert (0 <= h * P) as hP0 by (apply Rmult_le_pos; lra). assert (h * (P + q) <= h * (4 * nf)) as hB by (apply Rmult_le_compat_l; lra).
      assert (IZR i * cc <= (N - 1) * cc) as iB by (apply Rmult_le_compat_r; lra). assert (0 <= IZR i * cc) as i0 by (apply Rmult_le_pos; lra).
      set (Z := 2 * (h * P + IZR i * cc) + h * q).
      assert (Rabs (x + c - (S + g mu)) <= Z) as D. { replace (x + c - (S + g mu)) with ((x - S) + (c - g mu)) by ring. unfold Z. apply abs_sum_le; auto. }
      assert (Rabs (S + g mu) <= K * (P + q) / 2) as BS. { eapply Rle_trans; [apply abs_sum_le; eassumption|]. lra. }
      assert (K * (P + q) <= K * (4 * nf)) as BP by (apply Rmult_le_compat_l; lra).
      assert (Z <= 2 * (h * (4 * nf) + N * cc)) as Z4 by (unfold Z; lra).
      assert (Rabs (x + c) <= 2 * (K * nf) + Z) as Bxc. { replace (x + c) with ((x + c - (S + g mu)) + (S + g mu)) by ring. eapply Rle_trans; [apply Rabs_triang|]. lra. }
      destruct (r_fadd _ _ _ _ _ _ _ Hr t _ x c Vx Vc) as (y & Vy & Cy). { assert (3 * (K * K * nf) <= K * (K * K * nf)); [|lra]. apply Rmult_le_compat_r; lra. }
      exists y. split; [exact Vy|]. rewrite !Rplus_0_r. split; [|exact BS]. unfold close in Cy.
      assert (u * Rabs (x + c) <= u * (2 * (K * nf) + Z)) as U1 by (apply Rmult_le_compat_l; lra).
      assert (u * Z <= cc) as U2.
      { assert (u * Z <= u * (2 * (h * (4 * nf) + N * cc))) by (apply Rmult_le_compat_l; lra). assert (u * nf * (8 * h) <= u * nf * (1.5 * K)) by (apply Rmult_le_compat_l; [apply Rmult_le_pos|]; lra).
        assert (4 * (N * u) * cc <= 1 * cc) by (apply Rmult_le_compat_r; lra). unfold cc in *. lra. }
      replace (y - (S + g mu)) with ((y - (x + c)) + (x + c - (S + g mu))) by ring. eapply Rle_trans; [apply abs_sum_le; [exact Cy|exact D]|]. rewrite plus_IZR.
      assert (u * (2 * (K * nf) + Z) + e <= 2 * cc) as U3. { rewrite Rmult_plus_distr_l. assert (u * (2 * (K * nf)) + e <= cc) by (unfold cc; lra). lra. }
      assert (2 * (h * (P + q) + (IZR i + 1) * cc) = Z + h * q + 2 * cc) as -> by (unfold Z; ring). lra. }
    rewrite Et. cbn [bind]. replace (firstn (Z.to_nat (zlen (pl n))) (pl n)) with (pl n) in Dx, Bx by (unfold zlen; rewrite Nat2Z.id, firstn_all; auto). rewrite class_qs in Dx, Bx by auto. fold nf in Dx, Bx.
    destruct (kz_ok n l1 l2 l3 Hn P1 P2 P3) as (Ek & k0). pose proof (kron_classes n l1 l2 l3 Hn P1 P2 P3) as EK. fold nf g in EK. set (k := kz n l1 l2 l3) in *.
    assert (lsum (pl n) g = IZR k * nf) as ES. { rewrite Ek, <- EK. field. lra. } rewrite ES in Dx, Bx. apply IZR_le in k0.
    fold N in Dx. set (W := 8 * h + 6 * (N * (u * K))). assert (Rabs (x - IZR k * nf) <= W * nf) as DW. { replace (W * nf) with (2 * (h * (4 * nf) + N * cc)) by (unfold W, cc; ring). exact Dx. }
    assert (IZR k <= 2 * K) as kB. { rewrite Rabs_pos_eq in Bx by (apply Rmult_le_pos; lra). apply (Rmult_le_reg_r nf); lra. }
    assert (2 * W + 10 * (u * K) = merr) as EW by (unfold W, h, merr; ring). assert (0 <= W) as W0 by (unfold W; lra).
    destruct (r_fz _ _ _ _ _ _ _ Hr (zfact n)) as (f & Vf & Cf). { fold nf. rewrite Rabs_pos_eq by lra. assert (1 * nf <= K * (K * K) * nf); [|lra]. apply Rmult_le_compat_r; [lra|]. assert (1 * (1 * 1) <= K * (K * K)); [|lra]. apply Rmult_le_compat; try lra. apply Rmult_le_compat; lra. }
    unfold close in Cf. fold nf in Cf. rewrite (Rabs_pos_eq nf) in Cf by lra. assert (u * 1 <= u * nf) as Un by (apply Rmult_le_compat_l; lra). assert (Rabs (f - nf) <= 2 * u * nf) as Df by lra.
    assert (u * nf <= / 1000 * nf) as Un2 by (apply Rmult_le_compat_r; lra). pose proof (Rabs_le_inv _ _ Df) as (f1 & f2). assert (0.998 * nf <= f) as f3 by lra.
    assert (Rabs (x / f - IZR k) <= 1.01 * (W + 4 * (u * K))) as Dq.
    { replace (x / f - IZR k) with ((x - IZR k * f) / f) by (field; lra). unfold Rdiv. rewrite Rabs_mult, Rabs_inv, (Rabs_pos_eq f) by lra. apply (Rmult_le_reg_r f); [lra|]. rewrite Rmult_assoc, Rinv_l, Rmult_1_r by lra.
      replace (x - IZR k * f) with ((x - IZR k * nf) + IZR k * (nf - f)) by ring. eapply Rle_trans; [apply Rabs_triang|]. rewrite Rabs_mult, (Rabs_pos_eq (IZR k)), (Rabs_minus_sym nf f) by lra.
      assert (IZR k * Rabs (f - nf) <= 2 * K * (2 * u * nf)) by (apply Rmult_le_compat; try lra; apply Rabs_pos). assert (0 <= W + 4 * (u * K)) as W4 by lra.
      assert (1.01 * (W + 4 * (u * K)) * (0.998 * nf) <= 1.01 * (W + 4 * (u * K)) * f) by (apply Rmult_le_compat_l; lra). assert (0 <= (W + 4 * (u * K)) * nf) by (apply Rmult_le_pos; lra). lra. }
    assert (Rabs (x / f) <= 2 * K + 1) as Bq. { replace (x / f) with ((x / f - IZR k) + IZR k) by ring. eapply Rle_trans; [apply Rabs_triang|]. rewrite (Rabs_pos_eq (IZR k)) by lra. lra. }
    destruct (r_fdiv _ _ _ _ _ _ _ Hr t (fz F (zfact n)) x f Vx Vf) as (q & Vq & Cq); [lra| |].
    { eapply Rle_trans; [exact Bq|]. assert (3 * 1 <= K * (K * K * nf)); [|assert (K * 1 <= K * (K * K * nf)); [|lra]].
      - apply Rmult_le_compat; try lra.
      - apply Rmult_le_compat_l; lra. }
    unfold close in Cq. assert (u * Rabs (x / f) <= u * (2 * K + 1)) as Uq by (apply Rmult_le_compat_l; lra).
    assert (Rabs (q - IZR k) < 1) as Dk. { replace (q - IZR k) with ((q - x / f) + (x / f - IZR k)) by ring. eapply Rle_lt_trans; [apply Rabs_triang|]. lra. }
    assert (-1 < q - IZR k < 1) as (D1 & D2). { apply Rabs_def2 in Dk. lra. }
    destruct (r_ftoz _ _ _ _ _ _ _ Hr _ q Vq) as (z & Ez & T1 & T2). { apply Rabs_le. change (IZR (2 ^ 29)) with 536870912 in HK2. change (IZR (2 ^ 30)) with 1073741824. lra. }
    rewrite Ez. assert (z = k \/ (1 <= k)%Z /\ z = (k - 1)%Z) as [->|(k1 & ->)]; [|left; auto|right; auto].
    destruct (Rle_lt_dec 0 q) as [q0|q0].
    - destruct (T1 q0) as (A1 & A2). assert (IZR z < IZR (k + 1)) as X1 by (rewrite plus_IZR; lra). apply lt_IZR in X1. assert (IZR (k - 1) < IZR (z + 1)) as X2 by (rewrite minus_IZR, plus_IZR; lra). apply lt_IZR in X2.
      destruct (Z.eq_dec z k); [left; auto|right]. assert (0 <= z)%Z; [|lia]. assert (IZR (-1) < IZR z) as X3 by (change (IZR (-1)) with (-1); lra). apply lt_IZR in X3. lia.
    - destruct (T2 ltac:(lra)) as (A1 & A2). assert (IZR k < IZR 1) as X1 by (change (IZR 1) with 1; lra). apply lt_IZR in X1. apply le_IZR in k0. assert (k = 0)%Z as Ek0 by lia. left. rewrite Ek0 in *.
      change (IZR 0) with 0 in *. assert (IZR (-1) < IZR z) as X2 by (change (IZR (-1)) with (-1); lra). apply lt_IZR in X2. assert (IZR z < IZR 1) as X3 by (change (IZR 1) with 1; lra). apply lt_IZR in X3. lia.
  Qed.
End Coeff.
