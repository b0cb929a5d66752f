(* Actions on some of the vectors of a batch. *)
From Coq Require Import ZArith List Bool Lia ZifyBool ZifyNat Reals Lra.
From Verif Require Import Model_Base Model_Perm Model_Sn Model_Part Model_Comb Model_Tab Model_Irrep Model_Fun Model_FFT Model_Multi.
From Verif Require Import Spec_Perm Spec_Part Spec_Tab Spec_Rep Spec_Four Spec_Multi.
From Verif Require Import Proof_Base Proof_Perm Proof_Sn Proof_Part Proof_PartProps Proof_Tab Proof_TabProps Proof_Cycles Proof_Cox Proof_Yor Proof_Sum
  Proof_Irrep Proof_Rep Proof_Mat Proof_IrrepProps Proof_JM Proof_Conn Proof_Schur Proof_Restr Proof_UpDown Proof_Complete Proof_View Proof_ViewProps Proof_Block.
From Verif Require Import Proof_FFTact.
Import ListNotations.
Open Scope Z_scope.

Definition bperm (n : Z) (x : bop) : list Z :=
  match x with BPerm p _ _ => p | BCyc a b _ _ => pcyc n a b | BInv a b _ _ => pcyc n b a end.
Lemma bperm_ok n N x : bop_ok n N x -> is_perm n (bperm n x).
Proof. destruct x; cbn; intros H; [tauto|apply is_perm_pcyc; lia|apply is_perm_pcyc; lia]. Qed.
Lemma bperm_sends n N x i : bop_ok n N x -> 1 <= i <= n -> img (bperm n x) i = bop_sends x i.
Proof. destruct x; cbn [bop_ok bperm bop_sends]; intros H Hi; [auto|rewrite img_pcyc by auto; unf|rewrite img_pcyc by auto; unf]. Qed.

Lemma bop_step n l x T : is_part n l -> 1 <= n -> t_n0 T = io_d (mkirr n l) -> 0 <= t_n2 T -> bop_ok n (t_n1 T) x ->
  exists T', run_bop x (mkMpart (mkirr n l) T) = Ret (mkMpart (mkirr n l) T') /\ tdims T T' /\
  forall i y k, 0 <= i < t_n0 T -> 0 <= y < t_n1 T -> 0 <= k < t_n2 T ->
    t_at T' i y k = if bop_hits y x then rsum (io_d (mkirr n l)) (fun q => (rr n l (bperm n x) i q * t_at T q y k)%R) else t_at T i y k.
Proof.
  intros P Hn N0 N2 O. pose proof (bperm_ok _ _ _ O) as Pp. destruct (mkirr_ok n l P Hn) as (E & G). set (ir := mkirr n l) in *. set (m := t_n2 T). set (N := t_n1 T) in *.
  set (o := match x with BPerm _ o _ | BCyc _ _ o _ | BInv _ _ o _ => o end). set (s := match x with BPerm _ _ s | BCyc _ _ _ s | BInv _ _ _ s => s end).
  assert (0 <= o /\ 0 <= s /\ o + s <= N) as (Ho & Hs & Hos) by (destruct x; cbn in O; unfold o, s; lia).
  assert (bop_hits = fun y x => match x with BPerm _ o s | BCyc _ _ o s | BInv _ _ o s => (o <=? y) && (y <? o + s) end) as _ by reflexivity.
  assert (forall y, bop_hits y x = (o <=? y) && (y <? o + s)) as HB by (intros y; unfold o, s; destruct x; reflexivity).
  pose proof (acts_block n l ir G (o * m) ((o + s) * m) (N * m) ltac:(nia) ltac:(nia)) as AB.
  assert (exists A, match x with
     | BPerm p _ _ => act_perm (fun t => irr_apply_block ir t (o * m) ((o + s) * m)) n p (ten_mat T)
     | BCyc a b _ _ => act_cycle_block (fun t => irr_apply_block ir t (o * m) ((o + s) * m)) (mkCyc a b) (ten_mat T)
     | BInv a b _ _ => act_cycle_inv (fun t => irr_apply_block ir t (o * m) ((o + s) * m)) (mkCyc a b) (ten_mat T) end = Ret A /\
     (m_n0 A = io_d ir /\ m_n1 A = N * m) /\ forall c i, 0 <= i < io_d ir -> m_at A i c = if incols (o * m) ((o + s) * m) c then Phi n (bperm n x) (fcol ir (fun i => m_at (ten_mat T) i c)) (tb ir i) else m_at (ten_mat T) i c) as (A & EA & (D0 & D1) & V).
  { destruct x as [p o' s'|a b o' s'|a b o' s']; cbn in O, Pp.
    - apply (acts_perm n l ir G _ _ _ _ AB p (ten_mat T)); auto.
    - apply (acts_cycle_block n l ir G _ _ _ _ AB a b (ten_mat T)); auto; lia.
    - apply (acts_cycle_inv n l ir G _ _ _ _ AB a b (ten_mat T)); auto; lia. }
  exists (mat_ten A N m). split.
  { destruct x as [p o' s'|a b o' s'|a b o' s']; unfold run_bop, mp_apply_perm, mp_apply_cycle, mp_apply_cycle_inv, irr_apply_perm_block; cbn [mp_t mp_irr]; fold m N; [replace (io_n ir) with n by (symmetry; apply G)| |]; unfold o, s in EA; rewrite EA; reflexivity. }
  split; [unfold mat_ten, tdims; cbn [t_n0 t_n1 t_n2]; rewrite D0; auto|].
  intros i y k Hi Hy Hk. unfold mat_ten. cbn [t_at]. rewrite V by lia. unfold ten_mat. cbn [m_at]. fold m.
  assert ((y * m + k) / m = y) as Q1 by (symmetry; apply (Z.div_unique _ _ _ k); [lia|ring]).
  assert ((y * m + k) mod m = k) as Q2 by (symmetry; apply (Z.mod_unique _ _ y); [lia|ring]). rewrite Q1, Q2, HB.
  unfold incols. replace ((o * m <=? y * m + k) && (y * m + k <? (o + s) * m)) with ((o <=? y) && (y <? o + s)) by nia.
  destruct ((o <=? y) && (y <? o + s)); [|reflexivity]. rewrite (Phi_sum n l ir G _ (fun q => t_at T q y k)); [reflexivity|auto|lia].
Qed.

Lemma rsum_assoc d (A B : Z -> Z -> R) (f : Z -> R) i : rsum d (fun j => (A i j * rsum d (fun c => B j c * f c))%R) = rsum d (fun c => (rsum d (fun j => A i j * B j c) * f c)%R).
Proof.
  rewrite !rsum_lsum. transitivity (lsum (zrange 0 d) (fun j => lsum (zrange 0 d) (fun c => (A i j * B j c * f c)%R))).
  - apply lsum_ext. intros j _. rewrite rsum_lsum, <- lsum_scal. apply lsum_ext. intros c _. ring.
  - rewrite lsum_swap. apply lsum_ext. intros c _. rewrite rsum_lsum. rewrite <- lsum_scal_r. apply lsum_ext. intros j _. ring.
Qed.

Lemma mkirr_eq n l o : is_part n l -> 1 <= n -> irr_new l = Ret o -> o = mkirr n l.
Proof. intros P Hn E. destruct (mkirr_ok n l P Hn) as (E' & _). rewrite E in E'. apply Ret_inj in E'. auto. Qed.

Lemma bops_rr n l h : forall T, is_part n l -> 1 <= n -> t_n0 T = io_d (mkirr n l) -> 0 <= t_n2 T -> Forall (bop_ok n (t_n1 T)) h ->
  exists T', run_bops h (mkMpart (mkirr n l) T) = Ret (mkMpart (mkirr n l) T') /\ tdims T T' /\
  forall y, 0 <= y < t_n1 T -> exists q, is_perm n q /\ (forall i, 1 <= i <= n -> img q i = turns y h i) /\
    forall i k, 0 <= i < t_n0 T -> 0 <= k < t_n2 T -> t_at T' i y k = rsum (io_d (mkirr n l)) (fun c => (rr n l q i c * t_at T c y k)%R).
Proof.
  induction h as [|x h IH]; intros T P Hn N0 N2 F; destruct (mkirr_ok n l P Hn) as (E & G).
  - exists T. split; [reflexivity|]. split; [apply tdims_refl|]. intros y Hy. exists (pid n). split; [apply is_perm_pid; lia|]. split; [intros i Hi; apply img_pid; auto|].
    intros i k Hi Hk. rewrite (rsum_ext _ _ (fun c => (t_at T c y k * delta c i)%R)); [symmetry; apply (rsum_delta _ (fun c => t_at T c y k)); lia|]. intros c Hc. unfold rr. rewrite (rho_id n l _ G) by lia.
    rewrite Rmult_comm. f_equal. unfold delta. destruct (Z.eq_dec i c), (Z.eq_dec c i); congruence.
  - inversion F as [|? ? O F']; subst. destruct (bop_step n l x T P Hn N0 N2 O) as (T1 & E1 & D1 & V1). pose proof D1 as (A0 & A1 & A2).
    destruct (IH T1) as (T2 & E2 & D2 & V2); auto; try lia. { rewrite A1. auto. }
    exists T2. split; [unfold run_bops in *; cbn [foldM]; rewrite E1; exact E2|]. split; [eapply tdims_trans; eauto|].
    intros y Hy. destruct (V2 y ltac:(lia)) as (q & Pq & Iq & Vq). pose proof (bperm_ok _ _ _ O) as Px. unfold turns in *. cbn [fold_left]. destruct (bop_hits y x) eqn:HB.
    + exists (pmul q (bperm n x)). split; [apply is_perm_pmul; auto|]. split.
      * intros i Hi. rewrite img_pmul by (rewrite (is_perm_len _ _ Px); auto). rewrite <- (bperm_sends n (t_n1 T) x i O Hi). apply Iq. apply is_perm_img; auto.
      * intros i k Hi Hk. rewrite Vq by lia. rewrite (rsum_ext _ _ (fun j => (rr n l q i j * rsum (io_d (mkirr n l)) (fun c => rr n l (bperm n x) j c * t_at T c y k))%R)); [|intros j Hj; rewrite V1 by lia; rewrite HB; reflexivity].
        rewrite (rsum_assoc _ (rr n l q) (rr n l (bperm n x)) (fun c => t_at T c y k)). apply rsum_ext. intros c Hc. f_equal. symmetry. unfold rr. rewrite (rho_mul n l _ G) by (auto; lia). reflexivity.
    + exists q. split; auto. split; auto. intros i k Hi Hk. rewrite Vq by lia. apply rsum_ext. intros c Hc. rewrite V1 by lia. rewrite HB. reflexivity.
Qed.

Theorem batch_history n l o h T : is_part n l -> 1 <= n -> irr_new l = Ret o -> t_n0 T = io_d o -> 0 <= t_n2 T -> Forall (bop_ok n (t_n1 T)) h ->
  exists T', run_bops h (mkMpart o T) = Ret (mkMpart o T') /\ t_n0 T' = t_n0 T /\ t_n1 T' = t_n1 T /\ t_n2 T' = t_n2 T /\
  forall y, 0 <= y < t_n1 T -> exists q M, is_perm n q /\ (forall i, 1 <= i <= n -> img q i = turns y h i) /\ irr_matrix o q = Ret M /\
    forall i k, 0 <= i < io_d o -> 0 <= k < t_n2 T -> t_at T' i y k = mprod (io_d o) (m_at M) (fun c k => t_at T c y k) i k.
Proof.
  intros P Hn E. rewrite (mkirr_eq n l o P Hn E). intros N0 N2 F. destruct (mkirr_ok n l P Hn) as (_ & G). destruct (bops_rr n l h T P Hn N0 N2 F) as (T' & ET & (D0 & D1 & D2) & V). exists T'. split; auto. split; auto. split; auto. split; auto.
  intros y Hy. destruct (V y Hy) as (q & Pq & Iq & Vq). destruct (matrix_ok n l _ G q Pq) as (M & EM & M0 & M1 & VM). exists q, M. split; auto. split; auto. split; auto.
  intros i k Hi Hk. rewrite Vq by lia. unfold mprod. apply rsum_ext. intros c Hc. rewrite VM by auto. reflexivity.
Qed.

(* the copying action: it moves the first entries of other vectors *)
Theorem copy_acts n l o p b s T : is_part n l -> 1 <= n -> irr_new l = Ret o -> is_perm n p -> t_n0 T = io_d o -> 0 <= t_n2 T -> 0 <= b -> 0 <= s -> (b + s) * t_n2 T <= t_n1 T ->
  exists M T', irr_matrix o p = Ret M /\ mp_apply_copy b s p (mkMpart o T) = Ret (mkMpart o T') /\ t_n0 T' = t_n0 T /\ t_n1 T' = t_n1 T /\ t_n2 T' = t_n2 T /\
  forall i y k, 0 <= i < io_d o -> 0 <= y < t_n1 T -> 0 <= k < t_n2 T ->
    t_at T' i y k = if (k =? 0) && (b * t_n2 T <=? y) && (y <? (b + s) * t_n2 T) then mprod (io_d o) (m_at M) (fun c k => t_at T c y k) i k else t_at T i y k.
Proof.
  intros P Hn E Pp N0 N2 Hb Hs Hf. destruct (block_perm n l o p (b * t_n2 T) ((b + s) * t_n2 T) (two_index T) P Hn E Pp) as (M & A & EM & EA & A0 & A1 & V); auto; [nia|].
  exists M, (put_two_index T A). split; auto. split; [unfold mp_apply_copy; cbn [mp_t mp_irr]; rewrite EA; reflexivity|]. cbn. split; auto. split; auto. split; auto.
  intros i y k Hi Hy Hk. destruct (Z.eqb_spec k 0) as [->|]; [|reflexivity]. rewrite V by (cbn; auto). cbn [andb]. destruct (_ && _); reflexivity.
Qed.

Theorem copy_cycle_acts n l o a e b s T : is_part n l -> 1 <= n -> irr_new l = Ret o -> 1 <= a -> a <= e -> e <= n -> t_n0 T = io_d o -> 0 <= t_n2 T -> 0 <= b -> 0 <= s -> (b + s) * t_n2 T <= t_n1 T ->
  exists c M T', p_contiguous_cycle n a e = Ret c /\ irr_matrix o c = Ret M /\ mp_apply_copy_cycle b s (mkCyc a e) (mkMpart o T) = Ret (mkMpart o T') /\ t_n0 T' = t_n0 T /\ t_n1 T' = t_n1 T /\ t_n2 T' = t_n2 T /\
  forall i y k, 0 <= i < io_d o -> 0 <= y < t_n1 T -> 0 <= k < t_n2 T ->
    t_at T' i y k = if (k =? 0) && (b * t_n2 T <=? y) && (y <? (b + s) * t_n2 T) then mprod (io_d o) (m_at M) (fun c k => t_at T c y k) i k else t_at T i y k.
Proof.
  intros P Hn E Ha Hae He N0 N2 Hb Hs Hf. destruct (block_cycle n l o a e (b * t_n2 T) ((b + s) * t_n2 T) (two_index T) P Hn E Ha Hae He) as (c & M & A & Ec & EM & EA & A0 & A1 & V); auto; [nia|].
  exists c, M, (put_two_index T A). split; auto. split; auto. split; [unfold mp_apply_copy_cycle; cbn [mp_t mp_irr]; rewrite EA; reflexivity|]. cbn. split; auto. split; auto. split; auto.
  intros i y k Hi Hy Hk. destruct (Z.eqb_spec k 0) as [->|]; [|reflexivity]. rewrite V by (cbn; auto). cbn [andb]. destruct (_ && _); reflexivity.
Qed.

(* vectors of length one: the copy gets what the action in place gives *)
Theorem copy_of_length_one n l o p b s T : is_part n l -> 1 <= n -> irr_new l = Ret o -> is_perm n p -> t_n0 T = io_d o -> t_n2 T = 1 -> 0 <= b -> 0 <= s -> b + s <= t_n1 T ->
  exists T1 T2, mp_apply_copy b s p (mkMpart o T) = Ret (mkMpart o T1) /\ mp_apply_perm b s p (mkMpart o T) = Ret (mkMpart o T2) /\
  t_n0 T1 = t_n0 T2 /\ t_n1 T1 = t_n1 T2 /\ t_n2 T1 = t_n2 T2 /\
  forall i y k, 0 <= i < io_d o -> 0 <= y < t_n1 T -> 0 <= k < t_n2 T -> t_at T1 i y k = t_at T2 i y k.
Proof.
  intros P Hn E Pp N0 N2 Hb Hs Hf. destruct (copy_acts n l o p b s T P Hn E Pp N0) as (M & T1 & EM & E1 & A0 & A1 & A2 & V1); try lia; try nia.
  pose proof (mkirr_eq n l o P Hn E) as Eo. subst o. destruct (mkirr_ok n l P Hn) as (_ & G). destruct (matrix_ok n l _ G p Pp) as (M' & EM' & M0 & M1 & VM). rewrite EM in EM'. apply Ret_inj in EM'. subst M'.
  destruct (bop_step n l (BPerm p b s) T P Hn N0) as (T2 & E2 & (B0 & B1 & B2) & V2); [lia|cbn; auto|]. cbn [run_bop] in E2.
  exists T1, T2. split; auto. split; auto. split; [congruence|]. split; [congruence|]. split; [congruence|]. intros i y k Hi Hy Hk. rewrite V1, V2 by lia. cbn [bop_hits bperm]. rewrite N2, !Z.mul_1_r. replace (k =? 0) with true by lia. cbn [andb].
  destruct (_ && _); [|reflexivity]. unfold mprod. apply rsum_ext. intros c Hc. rewrite VM by auto. reflexivity.
Qed.

(* a column past the end is never read without harm *)
Lemma cols_in (f : Z -> mat -> outcome mat) L : (forall j A A', f j A = Ret A' -> m_n1 A' = m_n1 A /\ j < m_n1 A) -> forall A A', foldM f L A = Ret A' -> forall j, In j L -> j < m_n1 A.
Proof.
  intros H. induction L as [|x L IH]; intros A A' E j I; [destruct I|]. cbn [foldM] in E. apply bind_inv in E as (B & EB & E). destruct (H _ _ _ EB) as (K & K'). destruct I as [->|I]; auto. rewrite <- K. eapply IH; eauto.
Qed.
Lemma mget_inv A i j x : mget A i j = Ret x -> j < m_n1 A.
Proof. unfold mget. destruct (inrange i (m_n0 A) && inrange j (m_n1 A)) eqn:Q; [|discriminate]. unfold inrange in Q. lia. Qed.
Lemma mset_inv A i j x A' : mset A i j x = Ret A' -> m_n1 A' = m_n1 A.
Proof. unfold mset. destruct (inrange i (m_n0 A) && inrange j (m_n1 A)); [|discriminate]. intros E. apply Ret_inj in E. subst. reflexivity. Qed.

Lemma block_never n l o tau beg e A A' : good n l o -> 1 <= tau < n -> 1 <= io_d o -> beg < e -> m_n1 A < e -> irr_apply_block o tau beg e A <> Ret A'.
Proof.
  intros G Ht Hd Hb He E. unfold irr_apply_block in E. apply bind_inv in E as (u & _ & E). destruct (compute_yor_ok n l o G) as (yor & Ey & Ly & Vy). rewrite Ey in E. cbn [bind] in E.
  apply bind_inv in E as (st & E & _). unfold zfor at 1 in E. rewrite (zrange_cons 0 (io_d o)) in E by lia. cbn [foldM] in E. apply bind_inv in E as (st1 & E & _). rewrite (rd_ok _ _ false) in E by (rewrite zlen_repeat; lia). cbn [bind] in E. rewrite znth_repeat in E by lia.
  rewrite (yor_get_ok n o yor tau 0) in E; [|apply G|auto|lia|auto|apply Vy; lia]. cbn [bind] in E. destruct (slot o tau 0) as ((i2, c1), c2).
  destruct (i2 =? -1).
  - apply bind_inv in E as (B & E & _). unfold zfor in E. enough (e - 1 < m_n1 A) by lia. eapply (cols_in _ _) in E; [exact E| |apply in_zrange; lia].
    cbv beta. clear. intros j A A' E. apply bind_inv in E as (x & Ex & E). apply mget_inv in Ex. apply mset_inv in E. auto.
  - apply bind_inv in E as (B & E & _). unfold zfor in E. enough (e - 1 < m_n1 A) by lia. eapply (cols_in _ _) in E; [exact E| |apply in_zrange; lia].
    cbv beta. clear. intros j A A' E. apply bind_inv in E as (x & Ex & E). apply bind_inv in E as (x2 & Ex2 & E). apply bind_inv in E as (A1 & E1 & E). apply bind_inv in E as (x3 & Ex3 & E). apply mget_inv in Ex. apply mset_inv in E. apply mset_inv in E1. split; [congruence|auto].
Qed.

Theorem copy_never n l o p b s T : is_part n l -> 1 <= n -> irr_new l = Ret o -> is_perm n p -> (exists i, 1 <= i <= n /\ img p i <> i) -> 0 <= b -> 1 <= s -> t_n1 T < (b + s) * t_n2 T -> 1 <= t_n2 T ->
  forall P', mp_apply_copy b s p (mkMpart o T) <> Ret P'.
Proof.
  intros P Hn E Pp NI Hb Hs Hf Hm P' X. rewrite (mkirr_eq n l o P Hn E) in X. destruct (mkirr_ok n l P Hn) as (_ & G). unfold mp_apply_copy in X. cbn [mp_t mp_irr] in X. apply bind_inv in X as (A & X & _).
  unfold irr_apply_perm_block in X. replace (io_n (mkirr n l)) with n in X by (symmetry; apply G). rewrite act_perm_word in X by auto. destruct (pword_pw n p Pp) as (Ew & Hw). destruct (pword (Z.to_nat n) p) as [|tau w].
  - destruct NI as (i & Hi & N). apply N. rewrite <- Ew. cbn. apply img_pid. auto.
  - cbn [foldM] in X. apply bind_inv in X as (B & X & _). pose proof (dimR_pos n l P Hn) as D0. revert X. apply (block_never n l); auto; [apply Hw; left; auto|apply lt_IZR in D0; lia|nia].
Qed.
