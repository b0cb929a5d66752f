(* Learning Clebsch-Gordan factors: the eigenvectors, and the result. *)
From Coq Require Import ZArith List Bool Lia Reals Lra Sorting.Sorted Permutation.
From Verif Require Import Model_Base Model_Perm Model_Sn Model_Part Model_Comb Model_Tab Model_Irrep Model_Type Model_FFT Model_Vec Model_Char Model_CG Model_CGvec Model_VecB Model_Prod Model_Learn.
From Verif Require Import Spec_Perm Spec_Part Spec_Tab Spec_Rep Spec_Four Spec_Type Spec_FFT Spec_Vec Spec_CG Spec_CGvec Spec_VecB Spec_Prod Spec_Learn.
From Verif Require Import Proof_Base Proof_Perm Proof_Sn Proof_Part Proof_PartProps Proof_Tab Proof_TabProps Proof_Cycles Proof_Cox Proof_Yor Proof_Sum Proof_Irrep Proof_Rep Proof_Mat Proof_IrrepProps Proof_JM Proof_Conn Proof_Schur Proof_Restr Proof_UpDown Proof_Complete Proof_Char Proof_CharBank Proof_Type Proof_Rept Proof_FFTmath Proof_FFTlay Proof_FFTlay2 Proof_FFTblk Proof_FFTstep Proof_Vec Proof_Vec2 Proof_Vec3 Proof_Vec4 Proof_Vec5 Proof_Vec6 Proof_Vec7 Proof_Vec8 Proof_Kron Proof_CG Proof_CGdown Proof_CGvec1 Proof_CGvec2 Proof_CGvec3 Proof_CGvec4 Proof_CGvec5 Proof_CGvec6 Proof_CGvec7 Proof_Prod Proof_Hook Proof_Isot Proof_View Proof_VecB Proof_VecB2 Proof_Learn1 Proof_Learn2 Proof_Learn3 Proof_Learn4.
Import ListNotations.
Open Scope Z_scope.

Lemma znth_nth {A} (l : list A) i d : 0 <= i -> znth l i d = nth (Z.to_nat i) l d.
Proof. intros H. unfold znth. zcases; try lia. auto. Qed.

Lemma zlen_mrows A : 0 <= m_n0 A -> zlen (mrows A) = m_n0 A.
Proof. intros H. unfold mrows. rewrite zlen_map, zlen_zrange. lia. Qed.
Lemma entry_mrows A i j : 0 <= i < m_n0 A -> 0 <= j < m_n1 A -> entry (mrows A) i j = m_at A i j.
Proof.
  intros Hi Hj. unfold entry, mrows. rewrite <- (znth_nth _ i) by lia. rewrite (znth_map _ _ _ 0) by (rewrite zlen_zrange; lia). rewrite znth_zrange by lia. rewrite <- (znth_nth _ j) by lia. rewrite (znth_map _ _ _ 0) by (rewrite zlen_zrange; lia). rewrite znth_zrange by lia. reflexivity.
Qed.
Lemma mrows_square A r : m_n1 A = m_n0 A -> 0 <= m_n0 A -> In r (mrows A) -> zlen r = m_n0 A.
Proof. intros E H I. apply in_map_iff in I as (i & <- & _). rewrite zlen_map, zlen_zrange. lia. Qed.
Lemma mrows_ext A B : m_n0 A = m_n0 B -> m_n1 A = m_n1 B -> (forall i j, 0 <= i < m_n0 A -> 0 <= j < m_n1 A -> m_at A i j = m_at B i j) -> mrows A = mrows B.
Proof.
  intros E0 E1 H. unfold mrows. rewrite <- E0, <- E1. apply map_ext_in. intros i Hi. apply in_zrange in Hi. apply map_ext_in. intros j Hj. apply in_zrange in Hj. apply H; auto.
Qed.

Section Result.
  Variables (E : list (list R) -> mat * list R) (F : ftable) (k : nat) (l1 l2 : list Z).
  Let n := Z.of_nat k + 2.
  Hypotheses (P1 : is_part n l1) (P2 : is_part n l2) (Hbig : n <= 1234567).
  Let Hn : 2 <= n. Proof. unfold n. lia. Qed.
  Let D := DD k l1 l2.
  Let WM := WW n l1 l2.
  Let KZ := kz n l1 l2.
  Hypotheses (HE : exact E) (HR : rowz F k) (HO : orthN (n - 1) F).

  Definition Mr (mu : list Z) : list (list R) := mrows (mkMat (WM mu) (WM mu) (Mm F k l1 l2 mu)).
  Definition UU (mu : list Z) (c i : Z) : R := m_at (fst (E (Mr mu))) c i.
  Definition DDv (mu : list Z) (i : Z) : R := znth (snd (E (Mr mu))) i 0%R.

  Lemma WM0 mu : is_part (n - 1) mu -> 0 <= WM mu.
  Proof. intros Pm. apply zsum_nonneg. intros p Hp. apply pk_nonneg; auto. Qed.

  Lemma zlen_Mr mu : is_part (n - 1) mu -> zlen (Mr mu) = WM mu.
  Proof. intros Pm. unfold Mr. rewrite zlen_mrows; cbn [m_n0]; [auto|apply WM0; auto]. Qed.

  Lemma eig_ok mu : is_part (n - 1) mu -> eigen_of (Mr mu) (fst (E (Mr mu))) (snd (E (Mr mu))).
  Proof.
    intros Pm. apply HE. destruct (isot_product k l1 l2 P1 P2) as (e & He). pose proof (WM0 mu Pm) as W0. exists (mkMat (WM mu) (WM mu) (Gm F k l1 l2 e mu)), (map (evl k l1 l2 mu) (zrange 0 (WM mu))). unfold eigen_of, Mr. cbv zeta. rewrite zlen_mrows by (cbn; auto). cbn [m_n0 m_n1 m_at].
    split; [intros r Hr; apply mrows_square in Hr; cbn in *; auto|]. split; [auto|]. split; [auto|]. split; [rewrite zlen_map, zlen_zrange; lia|]. split.
    - intros i j Hi Hj. apply (G_cols F k l1 l2 P1 P2 e He HR HO); auto.
    - intros c j Hc Hj. rewrite (rsum_ext _ _ (fun x => rsum (WM mu) (fun j' => (Gm F k l1 l2 e mu c j' * evl k l1 l2 mu j' * (Gm F k l1 l2 e mu x j' * Gm F k l1 l2 e mu x j))%R))).
      + rewrite rsum_swap. rewrite (rsum_ext _ _ (fun j' => (Gm F k l1 l2 e mu c j' * evl k l1 l2 mu j' * delta j' j)%R)) by (intros; rewrite rsum_scal; f_equal; apply (G_cols F k l1 l2 P1 P2 e He HR HO); auto).
        rewrite (rsum_delta _ (fun j' => (Gm F k l1 l2 e mu c j' * evl k l1 l2 mu j')%R)) by auto. f_equal. rewrite <- znth_nth by lia. rewrite (znth_map _ _ _ 0) by (rewrite zlen_zrange; lia). rewrite znth_zrange by lia. auto.
      + intros x Hx. rewrite entry_mrows by (cbn; auto). cbn [m_at]. rewrite (M_eq F k l1 l2 P1 P2 e He HR mu c x) by auto. rewrite <- rsum_scal_r. apply rsum_ext. intros; ring.
  Qed.

  Lemma U_cols mu i i' : is_part (n - 1) mu -> 0 <= i < WM mu -> 0 <= i' < WM mu -> rsum (WM mu) (fun c => (UU mu c i * UU mu c i')%R) = delta i i'.
  Proof.
    intros Pm Hi Hi'. destruct (eig_ok mu Pm) as (_ & _ & _ & _ & H & _). rewrite zlen_Mr in H by auto. apply H; auto.
  Qed.
  Lemma U_eig mu c i : is_part (n - 1) mu -> 0 <= c < WM mu -> 0 <= i < WM mu -> rsum (WM mu) (fun c' => (Mm F k l1 l2 mu c c' * UU mu c' i)%R) = (UU mu c i * DDv mu i)%R.
  Proof.
    intros Pm Hc Hi. destruct (eig_ok mu Pm) as (_ & _ & _ & _ & _ & H). rewrite zlen_Mr in H by auto. unfold UU at 2, DDv. rewrite znth_nth by lia. rewrite <- (H c i) by auto. apply rsum_ext. intros x Hx. unfold UU. f_equal. unfold Mr. rewrite entry_mrows by (cbn; auto). auto.
  Qed.
  Lemma U_size mu : is_part (n - 1) mu -> m_n0 (fst (E (Mr mu))) = WM mu /\ m_n1 (fst (E (Mr mu))) = WM mu /\ zlen (snd (E (Mr mu))) = WM mu.
  Proof.
    intros Pm. destruct (eig_ok mu Pm) as (_ & A & B & C & _). rewrite zlen_Mr in A, B, C by auto. auto.
  Qed.

  Lemma eigen_step JM mu P : m_n0 JM = D -> m_n1 JM = D -> (forall i j, 0 <= i < D -> 0 <= j < D -> m_at JM i j = JMm k l1 l2 i j) -> is_part (n - 1) mu -> subpart F k l1 l2 mu P -> le_eigen E JM P = Ret (E (Mr mu)).
  Proof.
    intros J0 J1 VJ Pm (S1 & S2 & S3 & S4 & S5). fold n D in S2, S3, S4, S5. change (WW n l1 l2 mu) with (WM mu) in S4, S5. pose proof (dpos (n - 1) mu ltac:(lia) Pm) as Dm. unfold le_eigen, tslice1. rewrite S3. rewrite inrange_true by lia. cbn [bind].
    rewrite S2, S4. set (V := mkMat D (WM mu) (fun a b => t_at (pb_t P) a 0 b)). destruct (mat_mul_ok (mtransp V) JM) as (A & EA & A0 & A1 & VA); [cbn; auto|]. rewrite EA. cbn [bind]. destruct (mat_mul_ok A V) as (M & EM & M0 & M1 & VM); [cbn; congruence|]. rewrite EM. cbn [bind]. do 2 f_equal.
    cbn [mtransp m_n0 m_n1 V] in A0, M1. apply mrows_ext; cbn [m_n0 m_n1 m_at]; [congruence|auto|]. rewrite M0, M1, A0. intros c c' Hc Hc'. rewrite VM, A1, J1. unfold Mm. fold n. fold D.
    rewrite (rsum_ext D _ (fun b' => rsum D (fun b => (Wv F k l1 l2 mu 0 c b * (JMm k l1 l2 b b' * Wv F k l1 l2 mu 0 c' b'))%R))).
    - rewrite rsum_swap. apply rsum_ext. intros b Hb. rewrite rsum_scal. auto.
    - intros b' Hb'. rewrite VA. cbn [mtransp m_n1 V m_at m_n0]. rewrite S5 by (auto; lia). rewrite <- rsum_scal_r. apply rsum_ext. intros b Hb. rewrite S5, VJ by (auto; lia). ring.
  Qed.

  Lemma learn_ok b : ginv b -> exists Rf b', cg_learn E F b l1 l2 = Ret (asl Rf (TK l1 l2), b') /\ ginv b' /\ ty_down (cgt l1 l2) = Ret (TTl l1 l2) /\ (forall mu, is_part (n - 1) mu -> mult (TTl l1 l2) mu = WM mu) /\
    forall mu, In mu (TK l1 l2) -> is_part (n - 1) mu /\ m_n0 (Rf mu) = WM mu /\ m_n1 (Rf mu) = WM mu /\
      forall lam c a, occ k l1 l2 lam mu -> 0 <= c < WM mu -> 0 <= a < KZ lam -> m_at (Rf mu) c (coff n l1 l2 lam mu + a) = fin F k l1 l2 UU DDv lam mu c a.
  Proof.
    intros I. destruct (cgt_ok n l1 l2 ltac:(lia) P1 P2) as (PT & Hp). destruct (Hp b I) as (b1 & Ep & I1). destruct (TTl_ok k l1 l2 P1 P2) as (ET & TyT & _).
    destruct (mkirr_ok n l1 P1 ltac:(lia)) as (Er1 & G1). destruct (mkirr_ok n l2 P2 ltac:(lia)) as (Er2 & G2). destruct (pr_jm_ok n l1 l2 _ _ G1 G2 n ltac:(lia) ltac:(lia)) as (JM & EJ & J0 & J1 & VJ).
    destruct (sub_ok F k l1 l2 P1 P2 b1 I1) as (p1 & p2 & xs & ys & sub & b2 & Eu1 & Eu2 & Ex & Ey & Es & I2 & Fs & MW). fold n in Eu1, Eu2, MW. destruct (Hp b2 I2) as (b3 & Ep3 & I3).
    pose proof (keys_nodup k l1 l2 P1 P2) as Nk. pose proof (keys_parts k l1 l2 P1 P2) as Pk. fold n in Pk. rewrite Forall_forall in Pk.
    destruct (Forall2_fun _ _ _ (mkPartb (mkirr 1 [1]) (mkTen 0 0 0 (fun _ _ _ => 0%R))) Nk Fs) as (subf & -> & Hsub).
    set (Um := fun mu => fst (E (Mr mu))). set (Dl := fun mu => snd (E (Mr mu))).
    assert (foldM (fun P st => e <- le_eigen E JM P ;; Ret (st ++ [(io_lambda (pb_irr P), e)])) (map subf (TK l1 l2)) [] = Ret (asl (fun mu => E (Mr mu)) (TK l1 l2))) as Ee.
    { rewrite foldM_mapp. assert (forall K acc, incl K (TK l1 l2) -> foldM (fun i st => e <- le_eigen E JM (subf i) ;; Ret (st ++ [(io_lambda (pb_irr (subf i)), e)])) K acc = Ret (acc ++ asl (fun mu => E (Mr mu)) K)) as H.
      { induction K as [|mu K IH]; intros acc Hi; [cbn; rewrite app_nil_r; auto|]. cbn [foldM]. assert (In mu (TK l1 l2)) as Hm by (apply Hi; left; auto). rewrite (eigen_step JM mu) by auto. cbn [bind]. rewrite IH by (intros x Hx; apply Hi; right; auto). destruct (Hsub mu Hm) as (-> & _). cbn [mkirr io_lambda]. rewrite <- app_assoc. reflexivity. }
      apply (H (TK l1 l2) []). apply incl_refl. }
    destruct (isot_product k l1 l2 P1 P2) as (e & He).
    assert (forall mu, In mu (TK l1 l2) -> m_n0 (Um mu) = WM mu /\ m_n1 (Um mu) = WM mu /\ zlen (Dl mu) = WM mu) as Usize by (intros mu Hm; apply U_size; auto).
    assert (forall lam mu, occ k l1 l2 lam mu -> zlen (sel k l1 l2 mu (DDv mu) lam) = KZ lam) as Hsel.
    { intros lam mu O. pose proof (occ_part k l1 l2 lam mu O) as Pm. destruct O as (P & Hm & Hk). apply (sel_len F k l1 l2 P1 P2 e He HR HO mu (UU mu) (DDv mu) Pm); auto; intros; [apply U_cols|apply U_eig]; auto. }
    assert (forall mu i, In mu (TK l1 l2) -> 0 <= i < WM mu -> exists lam, occ k l1 l2 lam mu /\ DDv mu i = IZR (ct lam (rof lam mu))) as Hcont.
    { intros mu i Hm Hi. destruct (D_content F k l1 l2 P1 P2 e He HR HO mu (UU mu) (DDv mu) (Pk mu Hm)) with (i := i) as (lam & P & Hb & Hk & Ed); auto; [intros; apply U_cols; auto|intros; apply U_eig; auto|]. exists lam. split; [split; auto|auto]. }
    destruct (all_steps F k l1 l2 P1 P2 Hbig subf Um Dl Hsub Usize Hsel Hcont _ (start_ok F k l1 l2 Um Dl Usize)) as (s' & Ef & Inv).
    unfold cg_learn. rewrite Ep. cbn [bind]. rewrite ET. cbn [bind]. rewrite Er1, Er2. cbn [bind mkirr io_n]. fold (mkirr n l1) (mkirr n l2). rewrite EJ. cbn [bind]. rewrite Eu1, Eu2. cbn [bind]. rewrite Ex, Ey. cbn [bind]. rewrite Es. cbn [bind]. rewrite Ee. cbn [bind]. rewrite Ep3. cbn [bind].
    assert (map (fun p : list Z * Z => (fst p, mident (snd p))) (TTl l1 l2) = asl (fun mu => mident (WM mu)) (TK l1 l2)) as ->.
    { unfold asl, TK. rewrite map_map. apply map_ext_in. intros (mu, w) Hin. cbn [fst snd]. do 2 f_equal. rewrite <- MW; [symmetry; apply mult_in; [apply Nk|auto]|]. apply Pk. apply (in_map fst) in Hin. exact Hin. }
    assert (map (fun p : list Z * (mat * list R) => (fst p, fst (snd p))) (asl (fun mu => E (Mr mu)) (TK l1 l2)) = asl Um (TK l1 l2)) as Eq1 by (unfold asl; rewrite map_map; reflexivity).
    assert (map (fun p : list Z * (mat * list R) => (fst p, snd (snd p))) (asl (fun mu => E (Mr mu)) (TK l1 l2)) = asl Dl (TK l1 l2)) as Eq2 by (unfold asl; rewrite map_map; reflexivity).
    rewrite Eq1, Eq2.
    match goal with |- context [foldM ?f (cgt l1 l2) ?s0] => replace (foldM f (cgt l1 l2) s0) with (Ret s') by (symmetry; exact Ef) end. cbn [bind]. destruct s' as ((fs, tk), ev). destruct Inv as (Rf & ef & (-> & _) & HI). exists Rf, b3. split; [auto|]. split; [auto|]. split; [auto|]. split; [auto|]. intros mu Hm. destruct (HI mu Hm) as (A & B & _ & C & _). split; [auto|]. split; [auto|]. split; [auto|].
    intros lam c a O Hc Ha. apply C; auto. apply in_pairs. destruct O as (P & Hb & Hk). split; [|auto]. apply (cgt_keys n); auto. lia.
  Qed.
End Result.
