(* The transform on Sn in terms of the group (C44-C47). *)
From Coq Require Import ZArith List Bool Lia ZifyBool ZifyNat Reals Lra Sorted Permutation.
From Verif Require Import Model_Base Model_Perm Model_Sn Model_Part Model_Comb Model_Tab Model_Irrep Model_Fun Model_FFT.
From Verif Require Import Spec_Perm Spec_Part Spec_Tab Spec_Rep Spec_Four Spec_Fun Spec_FFT.
From Verif Require Import Proof_Base Proof_Perm Proof_Sn Proof_Part Proof_PartProps Proof_Tab Proof_TabProps Proof_Cycles Proof_Cox Proof_Yor Proof_Sum
  Proof_Irrep Proof_Rep Proof_Mat Proof_IrrepProps Proof_JM Proof_Conn Proof_Schur Proof_Restr Proof_UpDown Proof_Complete Proof_View Proof_ViewProps
  Proof_Fun Proof_FFTlay Proof_FFTblk Proof_FFTact Proof_FFTstep Proof_FFTmath Proof_FFT.
Import ListNotations.
Open Scope Z_scope.

Lemma F2_impl_in {A B} (R R' : A -> B -> Prop) xs ys : (forall x y, In x xs -> In y ys -> R x y -> R' x y) -> Forall2 R xs ys -> Forall2 R' xs ys.
Proof. intros H F. induction F as [|x y xs ys R1 F IH]; constructor; [apply H; auto; left; auto|]. apply IH. intros; apply H; auto; right; auto. Qed.

(* ---- the case of Sn: one column for each row ---- *)
Lemma emb_id k l y : is_part (1 + Z.of_nat k) l -> 0 <= y < mlt 1 k l -> emb 1 k l y = y.
Proof.
  revert l y. induction k as [|k IH]; intros l y P Hy.
  - change (mlt 1 0 l) with (tp_m (lvpart 1 0 l)) in Hy. cbn in Hy. replace y with 0 by lia. reflexivity.
  - destruct (jof_find 1 k l y Hy) as (r & c & Hr & Hc & ->). rewrite emb_block by auto.
    assert (subs 1 l = corners l) as SA by (apply (subs_all (1 + Z.of_nat k)); [replace (1 + Z.of_nat k + 1) with (1 + Z.of_nat (S k)) by lia; auto|lia]). rewrite SA in Hr.
    rewrite IH; auto.
    + rewrite jof_boff by auto. reflexivity.
    + replace (1 + Z.of_nat k) with (1 + Z.of_nat (S k) - 1) by lia. apply corner_part; auto.
Qed.

Lemma ncos_1 k : ncos 1 k = zfact (1 + Z.of_nat k).
Proof. rewrite <- (ncos_fact 1 ltac:(lia)). change (zfact 1) with 1. lia. Qed.

(* the coefficient of G at l *)
Definition four (n : Z) (G : list Z -> R) (l : list Z) (i j : Z) : R := lsum (all_perms n) (fun p => (G p * rr n l (pinv p) i j)%R).
Definition fpart (n : Z) (G : list Z -> R) (l : list Z) (P : spart) : Prop :=
  sp_irr P = mkirr n l /\ m_n0 (sp_mat P) = io_d (mkirr n l) /\ m_n1 (sp_mat P) = io_d (mkirr n l) /\
  agree (io_d (mkirr n l)) (io_d (mkirr n l)) (m_at (sp_mat P)) (four n G l).

Lemma fourV_four n f l i y : 1 <= n -> is_part n l -> is_fun n f -> 0 <= y < io_d (mkirr n l) ->
  fourV 1 (fun e => znth (sf_v f) e 0%R) (Z.to_nat (n - 1)) l i 0 y = four n (fv f) l i y.
Proof.
  intros Hn P IF Hy. unfold fourV, four. replace (1 + Z.of_nat (Z.to_nat (n - 1))) with n by lia. rewrite ncos_1. replace (1 + Z.of_nat (Z.to_nat (n - 1))) with n by lia.
  rewrite emb_id by (rewrite ?mlt_d; replace (1 + Z.of_nat (Z.to_nat (n - 1))) with n by lia; auto).
  rewrite rsum_lsum, <- lsum_elements. apply lsum_ext. intros e He. apply in_zrange in He. change (zfact 1) with 1. rewrite Z.mul_0_l, Z.add_0_l, Z.mul_1_r. f_equal.
  unfold fv. rewrite (proj1 IF), idn_elt_z by lia. reflexivity.
Qed.

Definition fftn (n : Z) : fft := mkFft n (-1) (map (level 1) (seq 0 (Z.to_nat n))).

Lemma fftn_levels n : 1 <= n -> ff_levels (fftn n) = map (level 1) (seq 0 (S (Z.to_nat (n - 1)))).
Proof. intros Hn. unfold fftn. cbn [ff_levels]. do 2 f_equal. lia. Qed.

(* with a single level the answer carries the irrep of the trivial group *)
Lemma up_label act F v w L : ff_levels F = [L] -> fft_up act F v = Ret w -> forall P, In P w -> sp_irr P = mkirr 1 [1].
Proof.
  intros E H P HP. unfold fft_up, mv_of_values in H. rewrite E in H. destruct (mkirr_ok 1 [1] (is_part_row 1 ltac:(lia)) ltac:(lia)) as (E1 & _). rewrite E1 in H. cbn [bind] in H.
  change (zlen [L]) with 1 in H. rewrite zfor_nil in H by lia. cbn [bind] in H. unfold mv_as_vec in H. cbn [foldM] in H.
  destruct (assert_ _) as [u| | |]; cbn [bind] in H; try discriminate. apply Ret_inj in H. subst w. destruct HP as [<-|[]]. reflexivity.
Qed.

Section OnSn.
  Variable act : irr -> ccycle -> ten -> outcome ten.
  Variable n : Z.
  Hypothesis Hn : 1 <= n.
  Hypothesis HA : forall k, 2 <= k <= n -> act_ok act k.
  Let K := Z.to_nat (n - 1).
  Local Lemma EK : 1 + Z.of_nat K = n. Proof. unfold K. lia. Qed.
  Local Lemma HAK : forall k, (0 < k <= K)%nat -> act_ok act (1 + Z.of_nat k).
  Proof. intros k Hk. apply HA. unfold K in Hk. lia. Qed.
  Local Lemma in_parts l : In l (plist K) <-> is_part n l.
  Proof. rewrite plist_spec. unfold K. replace (Z.of_nat (Z.to_nat (n - 1)) + 1) with n by lia. tauto. Qed.

  Local Lemma EQ : qlist 1 (1 + Z.of_nat K) = plist K.
  Proof. rewrite EK. apply qlist_all. auto. Qed.

  Theorem forward_n f : is_fun n f -> exists w, fft_forward act (fftn n) f = Ret w /\ Forall2 (fpart n (fv f)) (plist K) w.
  Proof.
    intros IF. pose proof EK as EK. destruct (forward_ok 1 ltac:(lia) act K HAK (fftn n) (fftn_levels n Hn) (sf_v f)) as (w & E & W).
    { rewrite ncos_1, EK. apply IF. }
    exists w. split; [exact E|]. unfold sv_ok in W. rewrite EQ in W.
    eapply F2_impl_in; [|exact W]. intros l P Hl HP (I & A & B & C). apply in_parts in Hl. rewrite EK in *.
    assert (mlt 1 K l = io_d (mkirr n l)) as M by (rewrite mlt_d; rewrite EK; auto). rewrite M in *.
    split; [|split; [auto|split; [auto|]]].
    - destruct (Nat.eq_dec K 0) as [K0|K1]; [|apply I; lia].
      assert (n = 1) as -> by lia. assert (l = [1]) as -> by (apply one_row; auto; apply (part_row0 1); auto; lia).
      eapply up_label; eauto. reflexivity.
    - intros i j Hi Hj. rewrite C by auto. unfold K. apply fourV_four; auto.
  Qed.

  Lemma fpart_sv f w : is_fun n f -> Forall2 (fpart n (fv f)) (plist K) w -> sv_ok 1 K (fun l i y => fourV 1 (fun e => znth (sf_v f) e 0%R) K l i 0 y) w.
  Proof.
    intros IF F. unfold sv_ok. rewrite EQ. eapply F2_impl; [|exact F]. intros l P Hl (A & B & C & D). apply in_parts in Hl. pose proof EK as EK. unfold spart_ok. rewrite EK.
    assert (mlt 1 K l = io_d (mkirr n l)) as M by (rewrite mlt_d; rewrite EK; auto). rewrite M. repeat split; auto. intros i y Hi Hy. rewrite D by auto. symmetry. unfold K. apply fourV_four; auto.
  Qed.

  Theorem inverse_n f w : is_fun n f -> Forall2 (fpart n (fv f)) (plist K) w -> fft_inv act (fftn n) w = Ret f.
  Proof.
    intros IF F. pose proof EK as EK. destruct (inverse_ok 1 ltac:(lia) act K HAK (fftn n) (fftn_levels n Hn) _ w (fpart_sv f w IF F)) as (v & E & Lv & V).
    unfold fft_inv. rewrite E. cbn [bind]. rewrite ncos_1, EK in *. destruct IF as (I1 & I2). destruct f as (fn, fl). cbn [sf_n sf_v] in *. subst fn.
    rewrite (levels_len 1 act K HAK (fftn n) (fftn_levels n Hn)). f_equal. f_equal; [unfold K; lia|]. apply (list_ext _ _ 0%R); [lia|]. intros i Hi. apply V. lia.
  Qed.
End OnSn.

(* ---- every vector is a transform ---- *)
Lemma four_ext n G G' l i j : 0 <= n -> (forall p, is_perm n p -> G p = G' p) -> four n G l i j = four n G' l i j.
Proof. intros Hn H. apply lsum_ext. intros p Hp. apply (all_perms_lists n Hn) in Hp. rewrite H by auto. reflexivity. Qed.

Lemma fpart_ext n G G' l P : 0 <= n -> (forall p, is_perm n p -> G p = G' p) -> fpart n G l P -> fpart n G' l P.
Proof. intros Hn H (A & B & C & D). repeat split; auto. intros i j Hi Hj. rewrite D by auto. apply four_ext; auto. Qed.

(* the function with given values *)
Definition of_fun (n : Z) (G : list Z -> R) : sfun := mkFun n (map (fun e => G (elt (Z.to_nat n) e)) (zrange 0 (zfact n))).

Lemma of_fun_is n G : is_fun n (of_fun n G).
Proof. split; [reflexivity|]. cbn [of_fun sf_v]. rewrite zlen_map, zlen_zrange. pose proof (zfact_pos n). lia. Qed.

Lemma of_fun_at n G p : is_perm n p -> fv (of_fun n G) p = G p.
Proof.
  intros P. unfold fv, of_fun. cbn [sf_n sf_v]. pose proof (idn_range n p P) as B. rewrite (znth_map _ _ _ 0) by (rewrite zlen_zrange; lia). rewrite znth_zrange by lia. rewrite Z.add_0_l, elt_idn_z by auto. reflexivity.
Qed.

(* the inversion formula *)
Definition ifour (n : Z) (W : list Z -> Z -> Z -> R) (p : list Z) : R :=
  lsum (plist (Z.to_nat (n - 1))) (fun l => (dimR n l / IZR (zfact n) * rsum (io_d (mkirr n l)) (fun a => rsum (io_d (mkirr n l)) (fun b => W l a b * rr n l p b a)))%R).

Lemma four_ifour n W l i j : 1 <= n -> is_part n l -> 0 <= i < io_d (mkirr n l) -> 0 <= j < io_d (mkirr n l) -> four n (ifour n W) l i j = W l i j.
Proof.
  intros Hn P Hi Hj. unfold four, ifour. set (ls := plist (Z.to_nat (n - 1))). pose proof (all_perms_lists n ltac:(lia)) as HL.
  assert (forall l', In l' ls <-> is_part n l') as IL by (intros l'; unfold ls; rewrite plist_spec; replace (Z.of_nat (Z.to_nat (n - 1)) + 1) with n by lia; tauto).
  destruct (mkirr_ok n l P Hn) as (_ & G). pose proof (zfact_pos n) as Fp. assert (IZR (zfact n) <> 0)%R as Fz by (apply not_0_IZR; lia).
  transitivity (lsum ls (fun l' => dimR n l' / IZR (zfact n) * rsum (io_d (mkirr n l')) (fun a => rsum (io_d (mkirr n l')) (fun b => W l' a b * lsum (all_perms n) (fun p => rr n l' p b a * rr n l p j i))))%R).
  - rewrite (lsum_ext (all_perms n) _ (fun p => lsum ls (fun l' => lsum (zrange 0 (io_d (mkirr n l'))) (fun a => lsum (zrange 0 (io_d (mkirr n l'))) (fun b => dimR n l' / IZR (zfact n) * W l' a b * (rr n l' p b a * rr n l p j i))%R)))).
    + rewrite lsum_swap. apply lsum_ext. intros l' _. rewrite lsum_swap. rewrite rsum_lsum, <- lsum_scal. apply lsum_ext. intros a _. rewrite lsum_swap, rsum_lsum, <- lsum_scal. apply lsum_ext. intros b _. rewrite lsum_scal. ring.
    + intros p Hp. apply HL in Hp. assert (rr n l (pinv p) i j = rr n l p j i) as -> by (unfold rr; apply (rho_inv n l _ G); auto).
      rewrite <- lsum_scal_r. apply lsum_ext. intros l' _. rewrite rsum_lsum, <- lsum_scal, <- lsum_scal_r. apply lsum_ext. intros a _. rewrite rsum_lsum, <- lsum_scal, <- lsum_scal_r. apply lsum_ext. intros b _. ring.
  - rewrite (lsum_single ls l); [|apply NoDup_plist|apply IL; auto|].
    + rewrite (rsum_single _ i) by (auto; intros a Ha Na; rewrite rsum_lsum; apply lsum_0; intros b Hb; apply in_zrange in Hb;
        pose proof (mm_same n l (mkirr n l) (all_perms n) Hn G HL b a j i Hb Ha Hj Hi) as M; unfold mm in M; unfold rr; rewrite M; destruct (Z.eq_dec b j), (Z.eq_dec a i); try contradiction; ring).
      rewrite (rsum_single _ j) by (auto; intros b Hb Nb;
        pose proof (mm_same n l (mkirr n l) (all_perms n) Hn G HL b i j i Hb Hi Hj Hi) as M; unfold mm in M; unfold rr; rewrite M; destruct (Z.eq_dec b j), (Z.eq_dec i i); try contradiction; ring).
      pose proof (mm_same n l (mkirr n l) (all_perms n) Hn G HL j i j i Hj Hi Hj Hi) as M. unfold mm in M. unfold rr. rewrite M. destruct (Z.eq_dec j j), (Z.eq_dec i i); try contradiction. unfold dimR. field. split; [|auto]. pose proof (dimR_pos n l P Hn). unfold dimR in *. lra.
    + intros l' Hl' Ne. apply IL in Hl'. destruct (mkirr_ok n l' Hl' Hn) as (_ & G'). rewrite rsum_lsum, lsum_0; [ring|]. intros a Ha. apply in_zrange in Ha. rewrite rsum_lsum. apply lsum_0. intros b Hb. apply in_zrange in Hb.
      pose proof (mm_zero n l' (mkirr n l') l (mkirr n l) (all_perms n) Hn G' G HL b a j i Hb Hj) as M. unfold mm in M. unfold rr. rewrite M; [ring|]. intros (K & _). contradiction.
Qed.
