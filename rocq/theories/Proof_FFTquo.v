(* The transform on the quotients Sn/Sm. *)
From Coq Require Import ZArith List Bool Lia Reals Lra Sorting.Sorted Permutation.
From Verif Require Import Model_Base Model_Perm Model_Sn Model_Part Model_Comb Model_Tab Model_Irrep Model_Fun Model_FFT.
From Verif Require Import Spec_Perm Spec_Part Spec_Tab Spec_Rep Spec_Four Spec_FFT.
From Verif Require Import Proof_Base Proof_Perm Proof_Sn Proof_SnProps Proof_Part Proof_PartProps Proof_Tab Proof_TabProps Proof_Cycles Proof_Cox Proof_Yor Proof_Sum Proof_Irrep Proof_Rep Proof_Mat Proof_IrrepProps Proof_JM Proof_Conn Proof_Schur Proof_Restr Proof_UpDown Proof_Complete Proof_View Proof_ViewProps Proof_Fun Proof_FFTlay Proof_FFTblk Proof_FFTact Proof_FFTstep Proof_FFTmath Proof_FFT Proof_FFTprops Proof_FFTprops2 Proof_FFTlay2.
Import ListNotations.
Open Scope Z_scope.

Definition fftq (n m : Z) : fft := mkFft n m (map (level m) (seq 0 (S (Z.to_nat (n - m))))).

Section Quo.
  Variables (act : irr -> ccycle -> ten -> outcome ten) (n m : Z).
  Hypothesis GA : good_act act n.
  Hypothesis Hm : 1 <= m <= n.
  Let K := Z.to_nat (n - m).
  Local Lemma EK : m + Z.of_nat K = n. Proof. unfold K. lia. Qed.
  Local Lemma HAK k : (0 < k <= K)%nat -> act_ok act (m + Z.of_nat k).
  Proof. intros H. apply GA. pose proof EK. lia. Qed.

  Lemma ncos_size k : snsm_size n m = Ret k -> ncos m K = k.
  Proof.
    intros E. destruct (snsm_size_ok n m ltac:(lia)) as (k' & E' & H). rewrite E in E'. apply Ret_inj in E'. subst k'. pose proof (ncos_fact m ltac:(lia) K) as N. rewrite EK in N. pose proof (zfact_pos m). nia.
  Qed.

  Lemma forward_q v : snsm_size n m = Ret (zlen v) -> exists w, fft_up act (fftq n m) v = Ret w /\ sv_ok m K (fun l i y => fourV m (fun e => znth v e 0%R) K l i 0 y) w.
  Proof. intros E. apply ncos_size in E. apply (forward_ok m ltac:(lia) act K HAK (fftq n m) eq_refl v). auto. Qed.

  Lemma forward_quotient f : m < n -> qf_n f = n -> qf_m f = m -> snsm_size n m = Ret (Z.of_nat (length (qf_v f))) ->
    exists F ls w, fft_new2 n m = Ret F /\ integer_partitions n = Ret ls /\ fft_forward_q act F f = Ret w /\
      Forall2 (quotient_part n m (qf_v f)) (filter (fun l => m <=? row l 0) ls) w.
  Proof.
    intros Hmn _ _ E. set (v := qf_v f) in *. fold (zlen v) in E. destruct (forward_q v E) as (w & Ew & W). exists (fftq n m), (plist (Z.to_nat (n - 1))), w.
    split; [apply fft_new2_ok; auto|]. split; [apply integer_partitions_ok; lia|]. split; [exact Ew|]. fold (qlist m n). unfold sv_ok in W. rewrite EK in W.
    eapply F2_impl; [|exact W]. intros l P Hl (I & A & B & C). specialize (I ltac:(unfold K; lia)). rewrite EK in *. pose proof (proj1 (in_qlist m n l ltac:(lia)) Hl) as (PL & _).
    exists (io_tabs (mkirr n l)), (embl m K l). split; [apply young_tableaux_ok; auto; lia|]. split.
    { rewrite <- EK. apply embl_columns; [lia|]. rewrite EK. auto. }
    rewrite I. split; [apply mkirr_ok; auto; lia|]. split; [rewrite A; reflexivity|]. split; [rewrite B, <- zlen_embl; reflexivity|].
    intros M HM i y Hi Hy. rewrite A in Hi. rewrite B in Hy. rewrite C by auto. unfold fourV. rewrite (ncos_size _ E), EK. apply rsum_ext. intros e He. rewrite Z.mul_0_l, Z.add_0_l.
    assert (0 <= e * zfact m < zfact n) as He'.
    { destruct (snsm_size_ok n m ltac:(lia)) as (k' & E' & H). rewrite E in E'. apply Ret_inj in E'. subst k'. pose proof (zfact_pos m). unfold zlen in H. rewrite <- H. split; [nia|]. apply Z.mul_lt_mono_pos_r; lia. }
    assert (is_perm n (elt (Z.to_nat n) (e * zfact m))) as Pe by (apply is_perm_elt_z; lia).
    specialize (HM e (elt (Z.to_nat n) (e * zfact m)) (pinv (elt (Z.to_nat n) (e * zfact m))) He (snsm_element_ok n m e ltac:(lia) He') (pinv_is_inverse n _ Pe)).
    destruct (mkirr_ok n l PL ltac:(lia)) as (_ & G). destruct (matrix_ok n l _ G _ (is_perm_pinv n _ Pe)) as (M' & EM & _ & _ & V). rewrite HM in EM. apply Ret_inj in EM. subst M'.
    unfold znth at 1. f_equal. assert (0 <= emb m K l y < io_d (mkirr n l)) as Hy' by (rewrite <- EK; apply emb_range; [lia|rewrite EK; auto|auto]). change (nth (Z.to_nat y) (embl m K l) 0) with (emb m K l y). rewrite V by auto. reflexivity.
  Qed.

  Lemma round_trip_quotient f : qf_n f = n -> qf_m f = m -> snsm_size n m = Ret (Z.of_nat (length (qf_v f))) ->
    exists F w, fft_new2 n m = Ret F /\ fft_forward_q act F f = Ret w /\ fft_inv_snsm act F w = Ret f.
  Proof.
    intros En Em E. destruct f as (n', m', v). cbn [qf_n qf_m qf_v] in *. subst n' m'. fold (zlen v) in E. destruct (forward_q v E) as (w & Ew & W). exists (fftq n m), w. split; [apply fft_new2_ok; auto|]. split; [exact Ew|].
    destruct (inverse_ok m ltac:(lia) act K HAK (fftq n m) eq_refl _ w W) as (v' & Ev & Lv & V). unfold fft_inv_snsm. rewrite Ev. cbn [bind fftq ff_n ff_m]. do 2 f_equal. rewrite (ncos_size _ E) in *. apply (list_ext _ _ 0%R); auto. intros i Hi. apply V. lia.
  Qed.

  (* inv instead of inv_snsm: the values are right but the function is said to live on S_(n-m+1) *)
  Lemma inv_label f : qf_n f = n -> qf_m f = m -> snsm_size n m = Ret (Z.of_nat (length (qf_v f))) ->
    exists F w, fft_new2 n m = Ret F /\ fft_forward_q act F f = Ret w /\ fft_inv act F w = Ret (mkFun (n - m + 1) (qf_v f)).
  Proof.
    intros En Em E. destruct (round_trip_quotient f En Em E) as (F & w & A & B & C). exists F, w. split; auto. split; auto. unfold fft_inv_snsm in C. unfold fft_inv. destruct (fft_down act F w) as [v| | |]; cbn [bind] in *; try discriminate.
    apply Ret_inj in C. subst f. rewrite fft_new2_ok in A by auto. apply Ret_inj in A. subst F. cbn [ff_levels qf_v]. do 2 f_equal. rewrite zlen_map. unfold zlen. rewrite seq_length. lia.
  Qed.
End Quo.

(* n = m: there is one coset and one part, but it is labelled with the irrep of S1 *)
Lemma quotient_n_n act n x : 2 <= n -> exists F w P o, fft_new2 n n = Ret F /\ fft_forward_q act F (mkQfun n n [x]) = Ret w /\ w = [P] /\ irr_new [1] = Ret o /\ sp_irr P = o /\ irr_new [n] <> Ret (sp_irr P).
Proof.
  intros Hn. destruct (mkirr_ok 1 [1] (is_part_row 1 ltac:(lia)) ltac:(lia)) as (E1 & _). destruct (mkirr_ok n [n] (is_part_row n ltac:(lia)) ltac:(lia)) as (En & _).
  eexists _, _, _, _. split; [apply fft_new2_ok; lia|]. replace (Z.to_nat (n - n)) with 0%nat by lia. split.
  - unfold fft_forward_q, fft_up. cbn [qf_v ff_levels seq map]. unfold mv_of_values. rewrite E1. cbn [bind]. change (zlen [level n 0] + 1) with 2. rewrite zfor_nil by lia. cbn [bind]. unfold mv_as_vec. cbn [foldM]. unfold mp_N. cbn [mp_t t_n1]. change (zlen [x] =? 1) with true. cbn [assert_ bind app]. reflexivity.
  - split; [reflexivity|]. split; [exact E1|]. split; [reflexivity|]. cbn [sp_irr mp_irr]. rewrite En. intros Q. apply Ret_inj in Q. apply (f_equal io_n) in Q. cbn in Q. lia.
Qed.

Lemma quotient_forward_rows n m f : 1 <= m < n -> qf_n f = n -> qf_m f = m -> snsm_size n m = Ret (Z.of_nat (length (qf_v f))) ->
  exists F ls w, fft_new2 n m = Ret F /\ integer_partitions n = Ret ls /\ fft_forward_q rows_cycle F f = Ret w /\
    Forall2 (quotient_part n m (qf_v f)) (filter (fun l => m <=? row l 0) ls) w.
Proof. intros H. apply (forward_quotient rows_cycle n m (good_rows n ltac:(lia)) ltac:(lia)). lia. Qed.

Lemma quotient_round_trip_rows n m f : 1 <= m <= n -> qf_n f = n -> qf_m f = m -> snsm_size n m = Ret (Z.of_nat (length (qf_v f))) ->
  exists F w, fft_new2 n m = Ret F /\ fft_forward_q rows_cycle F f = Ret w /\ fft_inv_snsm rows_cycle F w = Ret f.
Proof. intros H. apply (round_trip_quotient rows_cycle n m (good_rows n ltac:(lia)) H). Qed.

(* the label that inv puts on the values of a quotient function *)
Lemma inv_on_quotient n m f : 2 <= m < n -> n <= 4 -> qf_n f = n -> qf_m f = m -> snsm_size n m = Ret (Z.of_nat (length (qf_v f))) ->
  exists F w g, fft_new2 n m = Ret F /\ fft_forward_q irr_view_cycle F f = Ret w /\ fft_inv irr_view_cycle F w = Ret g /\ sf_v g = qf_v f /\ sf_n g = n - m + 1 /\ sf_n g <> n /\
    length (sf_v g) <> fact (Z.to_nat (sf_n g)).
Proof.
  intros H H4 En Em E. destruct (inv_label irr_view_cycle n m (good_view n ltac:(lia)) ltac:(lia) f En Em E) as (F & w & A & B & C). exists F, w, (mkFun (n - m + 1) (qf_v f)). cbn [sf_v sf_n]. repeat (split; [auto; lia|]).
  assert ((n = 3 /\ m = 2) \/ (n = 4 /\ m = 2) \/ (n = 4 /\ m = 3)) as [(-> & ->)|[(-> & ->)|(-> & ->)]] by lia;
    [change (snsm_size 3 2) with (Ret 3) in E|change (snsm_size 4 2) with (Ret 12) in E|change (snsm_size 4 3) with (Ret 4) in E]; apply Ret_inj in E; intros Q; rewrite Q in E; vm_compute in E; discriminate E.
Qed.
