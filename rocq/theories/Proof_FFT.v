(* The whole transform: forwards, backwards, and the round trip (C45, C46). *)
From Coq Require Import ZArith List Bool Lia ZifyBool ZifyNat Reals Lra Sorted.
From Verif Require Import Model_Base Model_Perm Model_Sn Model_Part Model_Comb Model_Tab Model_Irrep Model_Fun Model_FFT.
From Verif Require Import Spec_Perm Spec_Part Spec_Tab Spec_Rep Spec_Four.
From Verif Require Import Proof_Base Proof_Perm Proof_Sn Proof_Part Proof_PartProps Proof_Tab Proof_TabProps Proof_Cycles Proof_Cox Proof_Yor Proof_Sum
  Proof_Irrep Proof_Rep Proof_Mat Proof_IrrepProps Proof_JM Proof_Conn Proof_Schur Proof_Restr Proof_UpDown Proof_Complete Proof_View Proof_ViewProps
  Proof_FFTlay Proof_FFTblk Proof_FFTact Proof_FFTstep Proof_FFTmath.
Import ListNotations.
Open Scope Z_scope.

Section FFT.
  Variable m : Z.
  Hypothesis Hm : 1 <= m.
  Variable act : irr -> ccycle -> ten -> outcome ten.
  Variable K : nat.
  Local Notation lv k := (m + Z.of_nat k).
  Local Notation dd k l := (io_d (mkirr (lv k) l)).
  Hypothesis HA : forall k, (0 < k <= K)%nat -> act_ok act (lv k).
  Variable F : fft.
  Hypothesis HF : ff_levels F = map (level m) (seq 0 (S K)).

  Lemma levels_len : zlen (ff_levels F) = Z.of_nat K + 1.
  Proof. rewrite HF, zlen_map. unfold zlen. rewrite seq_length. lia. Qed.

  Lemma levels_rd k : (k <= K)%nat -> rd (ff_levels F) (Z.of_nat k) = Ret (level m k).
  Proof.
    intros Hk. pose proof levels_len as L. rewrite (rd_ok _ _ (level m 0)) by lia. rewrite HF. unfold znth. rewrite Nat2Z.id. rewrite (map_nth (level m)), seq_nth by lia. reflexivity.
  Qed.

  Lemma ncos_div k : (k <= K)%nat -> exists N, 0 < N /\ N * ncos m k = ncos m K.
  Proof.
    intros Hk. replace K with (k + (K - k))%nat by lia. generalize (K - k)%nat as j. clear - Hm. induction j as [|j (N & HN & E)].
    - exists 1. rewrite Nat.add_0_r. lia.
    - rewrite <- plus_n_Sm. cbn [ncos]. exists ((m + Z.of_nat (S (k + j))) * N). split; [nia|]. rewrite <- E. ring.
  Qed.

  Lemma ncos_next k N : (S k <= K)%nat -> N * ncos m k = ncos m K -> exists N', 0 < N' /\ N = N' * lv (S k) /\ N' * ncos m (S k) = ncos m K.
  Proof.
    intros Hk E. destruct (ncos_div (S k) Hk) as (N' & HN & E'). exists N'. split; auto. split; auto. cbn [ncos] in E'. pose proof (ncos_pos m Hm k). nia.
  Qed.

  (* a vector at the last level *)
  Definition spart_ok (V : list Z -> Z -> Z -> R) (l : list Z) (p : spart) : Prop :=
    ((0 < K)%nat -> sp_irr p = mkirr (lv K) l) /\ m_n0 (sp_mat p) = dd K l /\ m_n1 (sp_mat p) = mlt m K l /\
    forall i y, 0 <= i < dd K l -> 0 <= y < mlt m K l -> m_at (sp_mat p) i y = V l i y.
  Definition sv_ok (V : list Z -> Z -> Z -> R) (w : list spart) : Prop := Forall2 (spart_ok V) (qlist m (lv K)) w.

  Lemma sv_ok_ext V V' w : (forall l i y, In l (qlist m (lv K)) -> 0 <= i < dd K l -> 0 <= y < mlt m K l -> V l i y = V' l i y) -> sv_ok V w -> sv_ok V' w.
  Proof. intros H. apply F2_impl. intros l p Hl (A & B & C & D). repeat split; auto. intros. rewrite D by auto. auto. Qed.

  Lemma as_vec_ok V v : mv_ok m K 1 V v -> exists w, mv_as_vec v = Ret w /\ sv_ok (fun l i y => V l i 0 y) w.
  Proof.
    unfold mv_ok, sv_ok. intros H. unfold mv_as_vec.
    assert (forall ls w0, Forall2 (part_ok m K 1 V) ls v -> exists w, foldM (fun p R => _ <- assert_ (mp_N p =? 1) ;; Ret (R ++ [mkSpart (mp_irr p) (mkMat (t_n0 (mp_t p)) (mp_N p * t_n2 (mp_t p)) (fun i k => t_at (mp_t p) i 0 k))])) v w0 = Ret (w0 ++ w) /\
      Forall2 (spart_ok (fun l i y => V l i 0 y)) ls w) as Q.
    { clear H. induction v as [|p v IH]; intros ls w0 H; inversion H as [|l p' ls' v' (I & A & B & C & D) H']; subst; cbn [foldM].
      - exists []. rewrite app_nil_r. split; [reflexivity|constructor].
      - unfold mp_N at 1. rewrite B. change (1 =? 1) with true. cbn [assert_ bind].
        destruct (IH ls' (w0 ++ [mkSpart (mp_irr p) (mkMat (t_n0 (mp_t p)) (mp_N p * t_n2 (mp_t p)) (fun i k => t_at (mp_t p) i 0 k))]) H') as (w & E & W). rewrite E. rewrite <- app_assoc. eexists. split; [reflexivity|].
        constructor; auto. split; [exact I|]. cbn [sp_mat m_n0 m_n1 m_at]. unfold mp_N. rewrite A, B, C. repeat split; [lia|]. intros i y Hi Hy. apply D; auto. lia. }
    destruct (Q (qlist m (lv K)) [] H) as (w & E & W). exists w. split; auto.
  Qed.

  Theorem forward_ok v : zlen v = ncos m K -> exists w, fft_up act F v = Ret w /\ sv_ok (fun l i y => fourV m (fun e => znth v e 0%R) K l i 0 y) w.
  Proof.
    intros Lv. unfold fft_up, mv_of_values. destruct (mkirr_ok 1 [1] (is_part_row 1 ltac:(lia)) ltac:(lia)) as (-> & _). cbn [bind]. rewrite levels_len.
    set (f := fun e => znth v e 0%R).
    destruct (zfor_inv (fun i u => exists N, 0 < N /\ N * ncos m (Z.to_nat (i - 2)) = ncos m K /\ mv_ok m (Z.to_nat (i - 2)) N (fourV m f (Z.to_nat (i - 2))) u)
       2 (Z.of_nat K + 1 + 1) (fun l v => L <- rd (ff_levels F) (l - 1) ;; tlev_up act L v) [mkMpart (mkirr 1 [1]) (mkTen 1 (zlen v) 1 (fun _ s _ => nth (Z.to_nat s) v 0%R))]) as (u & E & N & HN & EN & W).
    - lia.
    - exists (ncos m K). pose proof (ncos_pos m Hm K). split; auto. change (Z.to_nat (2 - 2)) with 0%nat. cbn [ncos]. split; [lia|]. unfold mv_ok.
      replace (qlist m (lv 0)) with [[m]] by (replace (lv 0) with m by lia; symmetry; apply qlist_seed; auto). constructor; [|constructor].
      split; [lia|]. unfold ten_ok. cbn [mp_t t_n0 t_n1 t_n2 t_at]. replace (lv 0) with m by lia. rewrite d_row by auto. split; auto. split; auto. split; [rewrite mlt_0; auto|]. intros i s y Hi Hs Hy.
      rewrite fourV_0; auto; replace (lv 0) with m by lia; [rewrite qlist_seed by auto; left; auto|rewrite d_row by auto; auto].
    - intros i u Hi (N & HN & EN & W). set (k := Z.to_nat (i - 2)) in *. replace (Z.to_nat (i + 1 - 2)) with (S k) by lia. replace (i - 1) with (Z.of_nat (S k)) by lia. rewrite levels_rd by lia. cbn [bind].
      destruct (ncos_next k N ltac:(lia) EN) as (N' & HN' & -> & EN').
      destruct (up_ok m Hm act k N' (fourV m f k) u) as (w & Ew & Ww); auto; [apply HA; lia|lia|]. exists w. split; auto. exists N'. split; auto. split; auto.
      eapply mv_ok_ext; [|exact Ww]. intros l i' s y Hl Hi' Hs Hy. apply four_step; auto; lia.
    - rewrite E. cbn [bind]. replace (Z.to_nat (Z.of_nat K + 1 + 1 - 2)) with K in * by lia. assert (N = 1) as -> by (pose proof (ncos_pos m Hm K); nia).
      destruct (as_vec_ok _ _ W) as (w & Ew & Ww). exists w. split; auto.
  Qed.

  Lemma of_vec_ok V w : sv_ok V w -> mv_ok m K 1 (fun l i _ y => V l i y) (mv_of_vec w).
  Proof.
    unfold sv_ok, mv_ok, mv_of_vec. intros H. apply F2_map_r. eapply F2_impl; [|exact H]. intros l p _ (A & B & C & D). split; [exact A|]. unfold ten_ok. cbn [mp_t t_n0 t_n1 t_n2 t_at]. repeat split; auto.
  Qed.

  Lemma downT_ext k V V' lam r mu a y c : In lam (qlist m (lv (S k))) -> In r (subs m lam) -> 0 <= c < mlt m k mu -> 0 <= y ->
    (forall i s z, 0 <= i < dd (S k) lam -> s = y / lv (S k) -> 0 <= z < mlt m (S k) lam -> V lam i s z = V' lam i s z) -> downT m k V lam r mu a y c = downT m k V' lam r mu a y c.
  Proof.
    intros Hl Hr Hc Hy H. unfold downT. destruct (list_eq_dec Z.eq_dec (prem lam r) mu) as [E|]; [|reflexivity]. f_equal. apply rsum_ext. intros q Hq. f_equal. apply H; auto.
    destruct (jof_fit m k lam r Hr) as (A & B). rewrite E in B. lia.
  Qed.

  Theorem inverse_ok f w : sv_ok (fun l i y => fourV m f K l i 0 y) w -> exists v, fft_down act F w = Ret v /\ zlen v = ncos m K /\ forall e, 0 <= e < ncos m K -> znth v e 0%R = f e.
  Proof.
    intros H. unfold fft_down. rewrite levels_len. replace (Z.of_nat K + 1 - 1) with (Z.of_nat K) by lia. rewrite levels_rd by lia. cbn [bind]. unfold level at 1 2. cbn [tl_parts].
    pose proof (F2_len _ _ _ H) as L. rewrite zlen_map, <- L, Z.eqb_refl. cbn [assert_ bind].
    destruct (zfor_inv (fun _ (_ : unit) => True) 0 (zlen (qlist m (lv K))) (fun i _ => p <- rd w i ;; q <- rd (map (lvpart m K) (qlist m (lv K))) i ;;
         _ <- assert_ (m_n0 (sp_mat p) =? tp_d q) ;; assert_ (m_n1 (sp_mat p) =? tp_m q)) tt) as ([] & E & _).
    { apply zlen_nonneg. } { exact I. }
    { intros i [] Hi _. destruct (F2_rd _ _ _ i [] H Hi) as (p & Ep & (_ & A & B & _)). rewrite Ep. cbn [bind]. rewrite (rd_ok _ _ (lvpart m K [])) by (rewrite zlen_map; auto). cbn [bind].
      rewrite (znth_map _ _ _ []) by auto. set (l := znth (qlist m (lv K)) i []) in *. assert (In l (qlist m (lv K))) as Hl by (apply znth_In; auto). rewrite lv_d by auto. rewrite A, B. unfold mlt. rewrite !Z.eqb_refl. exists tt. auto. }
    rewrite E. cbn [bind]. clear E.
    destruct (zford_inv (fun l u => exists N, 0 < N /\ N * ncos m (Z.to_nat l) = ncos m K /\ mv_ok m (Z.to_nat l) N (fourV m f (Z.to_nat l)) u)
       1 (Z.of_nat K) (fun l v => L <- rd (ff_levels F) (l - 1) ;; nxt <- rd (ff_levels F) l ;; tlev_down act L nxt v) (mv_of_vec w)) as (u & E & N & HN & EN & W).
    - lia.
    - exists 1. rewrite Nat2Z.id. split; [lia|]. split; [lia|]. eapply mv_ok_ext; [|apply of_vec_ok; exact H]. intros l i s y Hl Hi Hs Hy. cbv beta. replace s with 0 by lia. reflexivity.
    - intros i u Hi (N & HN & EN & W). set (k := Z.to_nat (i - 1)). replace (i - 1) with (Z.of_nat k) by lia. replace (Z.to_nat i) with (S k) in * by lia. rewrite levels_rd by lia. cbn [bind]. replace i with (Z.of_nat (S k)) by lia. rewrite levels_rd by lia. cbn [bind].
      destruct (down_ok m Hm act k N (fourV m f (S k)) u) as (w' & Ew & Ww & _); auto; [apply HA; lia|lia|]. exists w'. split; auto. exists (N * lv (S k)). split; [nia|]. split; [rewrite <- EN; cbn [ncos]; ring|].
      eapply mv_ok_ext; [|exact Ww]. intros mu a y c Hmu Ha Hy Hc. rewrite <- (down_up m Hm k (fourV m f k) mu a y c) by (auto; lia). unfold downV. apply lsum_ext. intros lam Hlam. apply lsum_ext. intros r Hr.
      apply downT_ext; auto; [lia|]. intros i' s z Hi' -> Hz. symmetry. apply four_step; auto. apply Z.div_pos; lia.
    - change (Z.to_nat (1 - 1)) with 0%nat in *. cbn [ncos] in EN. assert (N = ncos m K) as -> by lia. rewrite E. cbn [bind]. unfold mv_ok in W. replace (qlist m (lv 0)) with [[m]] in W by (replace (lv 0) with m by lia; symmetry; apply qlist_seed; auto).
      inversion W as [|l p ls u' (_ & A & B & C & D) W']; subst. inversion W'; subst. change (rd [p] 0) with (Ret p). cbn [bind]. eexists. split; [reflexivity|].
      replace (lv 0) with m in * by lia. rewrite d_row in A, D by auto. rewrite mlt_0 in C, D. unfold mp_values, mp_N. rewrite A, B, C. pose proof (ncos_pos m Hm K). rewrite zlen_map, zlen_zrange. split; [lia|].
      intros e He. rewrite (znth_map _ _ _ 0) by (rewrite zlen_zrange; lia). rewrite znth_zrange by lia. rewrite Z.mod_1_r, Z.div_1_r, Z.mul_1_r, Z.add_0_l. rewrite (Z.div_small e) by lia. rewrite (Z.mod_small e) by lia.
      rewrite D by lia. apply fourV_0; auto; replace (lv 0) with m by lia; [rewrite qlist_seed by auto; left; auto|rewrite d_row by auto; lia|rewrite mlt_0; lia].
  Qed.
End FFT.
