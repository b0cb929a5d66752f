(* The arithmetic of the machine rounds: the operations of Coq.Floats.SpecFloat, used by [ieee], return the nearest number of
   the format.  The equalities between SpecFloat and Flocq are those of Flocq.IEEE754.PrimFloat, for any precision. *)
From Coq Require Import ZArith Reals Lra Lia Bool Floats.SpecFloat.
From Flocq Require Import Core BinarySingleNaN Relative.
From Verif Require Import Model_Base Model_Float Spec_Float.
Open Scope R_scope.

Section Format.
  Variables (prec emax : Z).
  Context (Hprec : Prec_gt_0 prec) (Hmax : Prec_lt_emax prec emax).

  Let emin := (3 - emax - prec)%Z.
  Definition rn (x : R) : R := round radix2 (SpecFloat.fexp prec emax) (round_mode mode_NE) x.

  Lemma sf_val_B (b : binary_float prec emax) : is_finite b = true -> sf_val prec emax (B2SF b) = Some (B2R b).
  Proof. intros H. unfold sf_val. rewrite valid_binary_B2SF, is_finite_SF_B2SF, H. cbn [andb]. rewrite SF2R_B2SF. reflexivity. Qed.

  Lemma sf_val_inv x r : sf_val prec emax x = Some r -> exists b : binary_float prec emax, B2SF b = x /\ is_finite b = true /\ B2R b = r.
  Proof.
    unfold sf_val. destruct (valid_binary prec emax x) eqn:V; [|discriminate]. destruct (is_finite_SF x) eqn:E; [|discriminate]. cbn [andb]. intros H. injection H as <-.
    exists (SF2B x V). split; [apply B2SF_SF2B|]. split; [rewrite is_finite_SF2B; auto|apply B2R_SF2B].
  Qed.

  Lemma ne_equiv s m l : round_nearest_even m l = choice_mode mode_NE s m l.
  Proof. destruct l as [|c]; [reflexivity|]. destruct c; try reflexivity. cbn. unfold Round.cond_incr. destruct (Z.even m); reflexivity. Qed.

  Lemma aux_equiv sx mx ex lx : SpecFloat.binary_round_aux prec emax sx mx ex lx = binary_round_aux prec emax mode_NE sx mx ex lx.
  Proof. unfold SpecFloat.binary_round_aux, binary_round_aux. set (t := shr_fexp _ _ _ _ _). destruct t as [m e']. cbn. rewrite (ne_equiv sx). reflexivity. Qed.

  Lemma round_equiv s m e : SpecFloat.binary_round prec emax s m e = binary_round prec emax mode_NE s m e.
  Proof. unfold SpecFloat.binary_round, binary_round, shl_align_fexp. set (t := shl_align _ _ _). destruct t as [mz ez]. apply aux_equiv. Qed.

  Lemma normalize_equiv m e sz : SpecFloat.binary_normalize prec emax m e sz = B2SF (binary_normalize prec emax Hprec Hmax mode_NE m e sz).
  Proof. destruct m as [|p|p]; [reflexivity| |]; cbn; rewrite B2SF_SF2B; apply round_equiv. Qed.

  Lemma mul_equiv (x y : binary_float prec emax) : SFmul prec emax (B2SF x) (B2SF y) = B2SF (Bmult mode_NE x y).
  Proof. destruct x as [sx|sx| |sx mx ex Bx], y as [sy|sy| |sy my ey By]; try reflexivity. cbn. rewrite B2SF_SF2B. apply aux_equiv. Qed.

  Lemma add_equiv (x y : binary_float prec emax) : SFadd prec emax (B2SF x) (B2SF y) = B2SF (Bplus mode_NE x y).
  Proof. destruct x as [sx|sx| |sx mx ex Bx], y as [sy|sy| |sy my ey By]; try reflexivity; try (cbn; destruct (Bool.eqb sx sy); reflexivity). apply normalize_equiv. Qed.

  Lemma sub_equiv (x y : binary_float prec emax) : SFsub prec emax (B2SF x) (B2SF y) = B2SF (Bminus mode_NE x y).
  Proof. destruct x as [sx|sx| |sx mx ex Bx], y as [sy|sy| |sy my ey By]; try reflexivity; try (cbn; destruct sx, sy; reflexivity). cbn. unfold Zminus. rewrite <- cond_Zopp_negb. apply normalize_equiv. Qed.

  Lemma div_equiv (x y : binary_float prec emax) : SFdiv prec emax (B2SF x) (B2SF y) = B2SF (Bdiv mode_NE x y).
  Proof. destruct x as [sx|sx| |sx mx ex Bx], y as [sy|sy| |sy my ey By]; try reflexivity. cbn. rewrite B2SF_SF2B. set (t := SFdiv_core_binary _ _ _ _ _ _). destruct t as [[mz ez] lz]. apply aux_equiv. Qed.

  Lemma sqrt_equiv (x : binary_float prec emax) : SFsqrt prec emax (B2SF x) = B2SF (Bsqrt mode_NE x).
  Proof. destruct x as [sx|sx| |sx mx ex Bx]; try reflexivity; [destruct sx; reflexivity|]. destruct sx; [reflexivity|]. cbn. rewrite B2SF_SF2B. set (t := SFsqrt_core_binary _ _ _ _). destruct t as [[mz ez] lz]. apply aux_equiv. Qed.

  Lemma opp_equiv (x : binary_float prec emax) : SFopp (B2SF x) = B2SF (Bopp x).
  Proof. destruct x; reflexivity. Qed.

  (* the error of one rounding *)
  Lemma rn_err x : Rabs (rn x - x) <= / 2 * bpow radix2 (- prec + 1) * Rabs x + / 2 * bpow radix2 emin.
  Proof.
    unfold rn. change (SpecFloat.fexp prec emax) with (FLT_exp emin prec). cbn [round_mode].
    assert (0 <= / 2 * bpow radix2 (- prec + 1) * Rabs x) as A. { apply Rmult_le_pos; [|apply Rabs_pos]. apply Rmult_le_pos; [lra|apply bpow_ge_0]. }
    assert (0 <= / 2 * bpow radix2 emin) as C by (apply Rmult_le_pos; [lra|apply bpow_ge_0]).
    destruct (Rle_lt_dec (bpow radix2 (emin + prec - 1)) (Rabs x)) as [H|H].
    - pose proof (relative_error_N_FLT radix2 emin prec Hprec (fun z => negb (Z.even z)) x H). lra.
    - pose proof (error_le_half_ulp radix2 (FLT_exp emin prec) (fun z => negb (Z.even z)) x) as E. rewrite ulp_FLT_small in E; [lra|exact Hprec|]. eapply Rlt_le_trans; [exact H|]. apply bpow_le. lia.
  Qed.

  Variables (u e B : R).
  Hypothesis Hu : u = / 2 * bpow radix2 (- prec + 1).
  Hypothesis He : / 2 * bpow radix2 emin <= e <= 1.
  Hypothesis HB : 1 <= B.
  Hypothesis HBm : 3 * B <= bpow radix2 emax.

  Lemma rn_close x : close u e x (rn x).
  Proof. unfold close. pose proof (rn_err x). rewrite Hu. lra. Qed.

  Lemma no_overflow x : Rabs x <= B -> Rlt_bool (Rabs (rn x)) (bpow radix2 emax) = true.
  Proof.
    intros H. apply Rlt_bool_true. pose proof (rn_close x) as C. unfold close in C. assert (0 < u <= / 2) as (U0 & U).
    { rewrite Hu. split; [apply Rmult_lt_0_compat; [lra|apply bpow_gt_0]|]. assert (bpow radix2 (- prec + 1) <= bpow radix2 0) as Q by (apply bpow_le; unfold Prec_gt_0 in Hprec; lia). change (bpow radix2 0) with 1 in Q. lra. }
    pose proof (Rabs_pos x) as X0. assert (u * Rabs x <= / 2 * B) by (apply Rmult_le_compat; lra). replace (rn x) with ((rn x - x) + x) by ring. eapply Rle_lt_trans; [apply Rabs_triang|]. lra.
  Qed.

  Lemma op_mul x y r s : sf_val prec emax x = Some r -> sf_val prec emax y = Some s -> Rabs (r * s) <= B -> exists z, sf_val prec emax (SFmul prec emax x y) = Some z /\ close u e (r * s) z.
  Proof.
    intros Hx Hy H. apply sf_val_inv in Hx as (a & <- & Fa & <-). apply sf_val_inv in Hy as (b & <- & Fb & <-). pose proof (Bmult_correct prec emax Hprec Hmax mode_NE a b) as C. fold (rn (B2R a * B2R b)) in C.
    rewrite (no_overflow _ H) in C. destruct C as (C1 & C2 & _). rewrite mul_equiv, sf_val_B by (rewrite C2, Fa, Fb; reflexivity). rewrite C1. eexists. split; [reflexivity|apply rn_close].
  Qed.
  Lemma op_add x y r s : sf_val prec emax x = Some r -> sf_val prec emax y = Some s -> Rabs (r + s) <= B -> exists z, sf_val prec emax (SFadd prec emax x y) = Some z /\ close u e (r + s) z.
  Proof.
    intros Hx Hy H. apply sf_val_inv in Hx as (a & <- & Fa & <-). apply sf_val_inv in Hy as (b & <- & Fb & <-). pose proof (Bplus_correct prec emax Hprec Hmax mode_NE a b Fa Fb) as C. fold (rn (B2R a + B2R b)) in C.
    rewrite (no_overflow _ H) in C. destruct C as (C1 & C2 & _). rewrite add_equiv, sf_val_B by exact C2. rewrite C1. eexists. split; [reflexivity|apply rn_close].
  Qed.
  Lemma op_sub x y r s : sf_val prec emax x = Some r -> sf_val prec emax y = Some s -> Rabs (r - s) <= B -> exists z, sf_val prec emax (SFsub prec emax x y) = Some z /\ close u e (r - s) z.
  Proof.
    intros Hx Hy H. apply sf_val_inv in Hx as (a & <- & Fa & <-). apply sf_val_inv in Hy as (b & <- & Fb & <-). pose proof (Bminus_correct prec emax Hprec Hmax mode_NE a b Fa Fb) as C. fold (rn (B2R a - B2R b)) in C.
    rewrite (no_overflow _ H) in C. destruct C as (C1 & C2 & _). rewrite sub_equiv, sf_val_B by exact C2. rewrite C1. eexists. split; [reflexivity|apply rn_close].
  Qed.
  Lemma op_div x y r s : sf_val prec emax x = Some r -> sf_val prec emax y = Some s -> s <> 0 -> Rabs (r / s) <= B -> exists z, sf_val prec emax (SFdiv prec emax x y) = Some z /\ close u e (r / s) z.
  Proof.
    intros Hx Hy Hs H. apply sf_val_inv in Hx as (a & <- & Fa & <-). apply sf_val_inv in Hy as (b & <- & Fb & <-). pose proof (Bdiv_correct prec emax Hprec Hmax mode_NE a b Hs) as C. fold (rn (B2R a / B2R b)) in C.
    rewrite (no_overflow _ H) in C. destruct C as (C1 & C2 & _). rewrite div_equiv, sf_val_B by (rewrite C2; exact Fa). rewrite C1. eexists. split; [reflexivity|apply rn_close].
  Qed.
  Lemma op_sqrt x r : sf_val prec emax x = Some r -> 0 <= r -> exists z, sf_val prec emax (SFsqrt prec emax x) = Some z /\ close u e (sqrt r) z.
  Proof.
    intros Hx H. apply sf_val_inv in Hx as (a & <- & Fa & <-). destruct (Bsqrt_correct prec emax Hprec Hmax mode_NE a) as (C1 & C2 & _). fold (rn (sqrt (B2R a))) in C1.
    rewrite sqrt_equiv, sf_val_B. { rewrite C1. eexists. split; [reflexivity|apply rn_close]. }
    rewrite C2. destruct a as [| | |[|] m x B0]; try discriminate; try reflexivity. exfalso. cbn [B2R cond_Zopp] in H. assert (F2R (Float radix2 (Z.neg m) x) < 0) by (apply F2R_lt_0; reflexivity). cbn in *. lra.
  Qed.
  Lemma op_opp x r : sf_val prec emax x = Some r -> sf_val prec emax (SFopp x) = Some (- r).
  Proof. intros Hx. apply sf_val_inv in Hx as (a & <- & Fa & <-). rewrite opp_equiv, sf_val_B by (rewrite is_finite_Bopp; auto). rewrite B2R_Bopp. reflexivity. Qed.

  (* integers *)
  Lemma op_int z : Rabs (IZR z) <= B -> sf_val prec emax (SpecFloat.binary_normalize prec emax z 0 false) = Some (rn (IZR z)).
  Proof.
    intros H. pose proof (binary_normalize_correct prec emax Hprec Hmax mode_NE z 0 false) as C. cbv zeta in C. assert (F2R (Float radix2 z 0) = IZR z) as E by (unfold F2R; cbn; ring). rewrite E in C. fold (rn (IZR z)) in C. rewrite (no_overflow _ H) in C. destruct C as (C1 & C2 & _).
    rewrite normalize_equiv, sf_val_B by exact C2. rewrite C1. reflexivity.
  Qed.

  Lemma format_exact x (f : float radix2) : x = F2R f -> (Z.abs (Fnum f) < 2 ^ prec)%Z -> (emin <= Fexp f)%Z -> rn x = x.
  Proof.
    intros E H1 H2. unfold rn. apply round_generic; [apply valid_rnd_round_mode|]. change (SpecFloat.fexp prec emax) with (FLT_exp emin prec). apply generic_format_FLT. exists f; auto.
  Qed.

  Lemma int_exact z : (Z.abs z <= 2 ^ prec)%Z -> (emin <= 0)%Z -> rn (IZR z) = IZR z.
  Proof.
    intros H Hm. unfold Prec_gt_0 in Hprec. destruct (Z_lt_le_dec (Z.abs z) (2 ^ prec)) as [L|L].
    - apply (format_exact _ (Float radix2 z 0)); auto. unfold F2R; cbn; ring.
    - assert (1 < 2 ^ prec)%Z by (apply Z.pow_gt_1; lia).
      assert (bpow radix2 prec = IZR (2 ^ prec)) as E by (rewrite <- IZR_Zpower by lia; reflexivity).
      destruct (Z.abs_spec z) as [(Z1 & Z2)|(Z1 & Z2)].
      + apply (format_exact _ (Float radix2 1 prec)); cbn [Fnum Fexp]; [|lia|lia]. unfold F2R. cbn [Fnum Fexp]. rewrite E, Rmult_1_l. f_equal. lia.
      + apply (format_exact _ (Float radix2 (-1) prec)); cbn [Fnum Fexp]; [|lia|lia]. unfold F2R. cbn [Fnum Fexp]. rewrite E, <- mult_IZR. f_equal. lia.
  Qed.

  (* conversion from another format *)
  Lemma op_conv prec' emax' x r : sf_val prec' emax' x = Some r -> Rabs r <= B -> exists z, sf_val prec emax (sf_conv prec emax x) = Some z /\ z = rn r.
  Proof.
    unfold sf_val at 1. destruct (valid_binary prec' emax' x) eqn:V; [|discriminate]. destruct (is_finite_SF x) eqn:E; [|discriminate]. cbn [andb]. intros H HR. injection H as <-.
    destruct x as [s| | |s m ex]; try discriminate.
    - cbn [sf_conv]. exists 0. split; [reflexivity|]. cbn [SF2R]. unfold rn. symmetry. apply round_0. apply valid_rnd_round_mode.
    - cbn [sf_conv]. rewrite round_equiv. destruct (binary_round_correct prec emax Hprec Hmax mode_NE s m ex) as (C1 & C2). cbv zeta in C2. cbn [SF2R] in *. fold (rn (F2R (Float radix2 (cond_Zopp s (Z.pos m)) ex))) in C2.
      rewrite (no_overflow _ HR) in C2. destruct C2 as (C2 & C3 & _). exists (rn (F2R (Float radix2 (cond_Zopp s (Z.pos m)) ex))). split; [|reflexivity]. unfold sf_val. rewrite C1, C3. cbn [andb]. rewrite C2. reflexivity.
  Qed.
End Format.

Lemma sf_val_bound prec emax (Hprec : Prec_gt_0 prec) x r : sf_val prec emax x = Some r -> Rabs r < bpow radix2 emax.
Proof. intros H. apply sf_val_inv in H as (b & _ & _ & <-). apply abs_B2R_lt_emax. Qed.

(* conversion to int *)
Lemma trunc_ok prec emax x r : sf_val prec emax x = Some r -> Rabs r <= IZR (2 ^ 30) -> exists z, sf_trunc x = Ret z /\ truncates r z.
Proof.
  unfold sf_val. destruct (valid_binary prec emax x); [|discriminate]. destruct (is_finite_SF x) eqn:E; [|discriminate]. cbn [andb]. intros H HR. injection H as <-.
  destruct x as [s| | |s m ex]; try discriminate.
  - exists 0%Z. split; [reflexivity|]. cbn [SF2R]. split; intros; cbn; lra.
  - cbn [sf_trunc SF2R] in *. set (a := (if (0 <=? ex)%Z then (Z.pos m * 2 ^ ex)%Z else (Z.pos m / 2 ^ (- ex))%Z)).
    assert (F2R (Float radix2 (cond_Zopp s (Z.pos m)) ex) = if s then - F2R (Float radix2 (Z.pos m) ex) else F2R (Float radix2 (Z.pos m) ex)) as ER by (destruct s; cbn [cond_Zopp]; [change (Z.neg m) with (- Z.pos m)%Z; apply F2R_Zopp|reflexivity]).
    assert (IZR a <= F2R (Float radix2 (Z.pos m) ex) < IZR a + 1 /\ (0 <= a)%Z) as (T & A0).
    { unfold a, F2R. cbn [Fnum Fexp]. destruct (Z.leb_spec 0 ex).
      - rewrite mult_IZR. change (2 ^ ex)%Z with (radix2 ^ ex)%Z. rewrite IZR_Zpower by auto. split; [lra|]. apply Z.mul_nonneg_nonneg; [lia|]. apply Z.pow_nonneg. cbn; lia.
      - assert (0 < 2 ^ (- ex))%Z as P by (apply Z.pow_pos_nonneg; lia). pose proof (Z.div_mod (Z.pos m) (2 ^ (- ex)) ltac:(lia)) as DM. pose proof (Z.mod_pos_bound (Z.pos m) (2 ^ (- ex)) P) as MB.
        assert (bpow radix2 ex = / IZR (2 ^ (- ex))) as EB. { replace ex with (- - ex)%Z at 1 by lia. rewrite bpow_opp. f_equal. symmetry. apply (IZR_Zpower radix2). lia. }
        rewrite EB. apply IZR_lt in P as P'. set (q := (Z.pos m / 2 ^ (- ex))%Z) in *. set (w := (2 ^ (- ex))%Z) in *. split; [|apply Z.div_pos; lia]. split.
        + apply (Rmult_le_reg_r (IZR w)); [auto|]. rewrite Rmult_assoc, Rinv_l, Rmult_1_r by lra. rewrite <- mult_IZR. apply IZR_le. nia.
        + apply (Rmult_lt_reg_r (IZR w)); [auto|]. rewrite Rmult_assoc, Rinv_l, Rmult_1_r by lra. rewrite <- plus_IZR, <- mult_IZR. apply IZR_lt. nia. }
    set (p := F2R (Float radix2 (Z.pos m) ex)) in *. rewrite ER in *. pose proof (IZR_le _ _ A0) as A1.
    assert (IZR a <= IZR (2 ^ 30)) as A2. { destruct s; [rewrite Rabs_Ropp in HR|]; rewrite Rabs_pos_eq in HR by lra; lra. } apply le_IZR in A2.
    exists (if s then - a else a)%Z. split.
    + replace ((- 2 ^ 31 <=? (if s then - a else a)) && ((if s then - a else a) <? 2 ^ 31))%Z with true; [reflexivity|]. symmetry. apply andb_true_intro. change (2 ^ 31)%Z with 2147483648%Z. change (2 ^ 30)%Z with 1073741824%Z in A2. destruct s; split; [apply Z.leb_le|apply Z.ltb_lt|apply Z.leb_le|apply Z.ltb_lt]; lia.
    + destruct s; split; intros; rewrite ?opp_IZR; lra.
Qed.

Lemma prec24 : Prec_gt_0 24. Proof. reflexivity. Qed.
Lemma prec53 : Prec_gt_0 53. Proof. reflexivity. Qed.
Lemma max24 : Prec_lt_emax 24 128. Proof. reflexivity. Qed.
Lemma max53 : Prec_lt_emax 53 1024. Proof. reflexivity. Qed.

(* relative error 2^-24 for float and 2^-53 for double, absolute error 2^-149; results up to 2^100 *)
Definition u32 : R := / IZR (2 ^ 24).
Definition u64 : R := / IZR (2 ^ 53).
Definition e32 : R := / IZR (2 ^ 149).
Definition big : R := IZR (2 ^ 100).

Lemma bpow2 k : (0 <= k)%Z -> bpow radix2 k = IZR (2 ^ k). Proof. intros. rewrite <- (IZR_Zpower radix2) by auto. reflexivity. Qed.
Lemma bpow2n k : (0 <= k)%Z -> bpow radix2 (- k) = / IZR (2 ^ k). Proof. intros. rewrite bpow_opp, bpow2 by auto. reflexivity. Qed.

Lemma u32_ok : u32 = / 2 * bpow radix2 (- (24) + 1).
Proof. unfold u32. change (- (24) + 1)%Z with (- (23))%Z. rewrite bpow2n by lia. rewrite <- Rinv_mult, <- mult_IZR. reflexivity. Qed.
Lemma u64_ok : u64 = / 2 * bpow radix2 (- (53) + 1).
Proof. unfold u64. change (- (53) + 1)%Z with (- (52))%Z. rewrite bpow2n by lia. rewrite <- Rinv_mult, <- mult_IZR. reflexivity. Qed.

Lemma e32_ok : / 2 * bpow radix2 (3 - 128 - 24) <= e32 <= 1.
Proof.
  change (3 - 128 - 24)%Z with (- (149))%Z. rewrite bpow2n by lia. unfold e32. assert (1 <= IZR (2 ^ 149)) as H by (apply IZR_le; reflexivity || (vm_compute; discriminate)).
  assert (0 < / IZR (2 ^ 149)) by (apply Rinv_0_lt_compat; lra). assert (/ IZR (2 ^ 149) <= / 1) by (apply Rinv_le_contravar; lra). lra.
Qed.
Lemma e64_ok : / 2 * bpow radix2 (3 - 1024 - 53) <= e32 <= 1.
Proof.
  split; [|apply e32_ok]. eapply Rle_trans; [|apply e32_ok]. apply Rmult_le_compat_l; [lra|]. apply bpow_le. lia.
Qed.
Lemma big_one : 1 <= big. Proof. unfold big. apply IZR_le. vm_compute. discriminate. Qed.
Lemma big32 : 3 * big <= bpow radix2 128. Proof. rewrite bpow2 by lia. unfold big. rewrite <- mult_IZR. apply IZR_le. vm_compute. discriminate. Qed.
Lemma big64 : 3 * big <= bpow radix2 1024. Proof. eapply Rle_trans; [apply big32|]. apply bpow_le. lia. Qed.
Lemma one64 : 1 <= bpow radix2 128. Proof. change 1 with (bpow radix2 0). apply bpow_le. lia. Qed.
Lemma big64' : 3 * bpow radix2 128 <= bpow radix2 1024.
Proof. apply Rle_trans with (bpow radix2 2 * bpow radix2 128); [apply Rmult_le_compat_r; [apply bpow_ge_0|cbn; lra]|]. rewrite <- bpow_plus. apply bpow_le. lia. Qed.

Lemma small_big z k : (0 <= k <= 100)%Z -> (Z.abs z <= 2 ^ k)%Z -> Rabs (IZR z) <= big.
Proof. intros Hk H. rewrite <- abs_IZR. unfold big. apply IZR_le. eapply Z.le_trans; [exact H|]. apply Z.pow_le_mono_r; lia. Qed.

Lemma ieee_rounded : rounded ieee val32 val64 u32 u64 e32 big.
Proof.
  pose proof u32_ok as U32. pose proof u64_ok as U64. pose proof e32_ok as E32. pose proof e64_ok as E64. pose proof big_one as B1. pose proof big32 as B32. pose proof big64 as B64.
  pose proof prec24 as P24. pose proof prec53 as P53. pose proof max24 as M24. pose proof max53 as M53.
  split.
  - intros z H. cbn [fz ieee]. unfold val32. rewrite (op_int 24 128 P24 M24 u32 e32 big) by (auto; apply (small_big z 24); auto; lia). f_equal. apply int_exact; auto. lia.
  - intros z H. cbn [dz ieee]. unfold val64. rewrite (op_int 53 1024 P53 M53 u64 e32 big) by (auto; apply (small_big z 53); auto; lia). f_equal. apply int_exact; auto. lia.
  - intros z H. cbn [fz ieee]. unfold val32. rewrite (op_int 24 128 P24 M24 u32 e32 big) by auto. eexists. split; [reflexivity|]. apply rn_close; auto.
  - intros a r H. cbn [fd ieee]. unfold val64. destruct (op_conv 53 1024 P53 M53 u64 e32 (bpow radix2 128) U64 E64 one64 big64' 24 128 a r H) as (z & -> & ->). { apply Rlt_le. apply (sf_val_bound 24 128 P24 a). exact H. }
    f_equal. apply sf_val_inv in H as (b & _ & _ & <-). pose proof (FLT_format_B2R 24 128 P24 b) as [f Ef Nf Xf]. apply (format_exact 53 1024 _ f); auto.
    + eapply Z.lt_le_trans; [exact Nf|]. vm_compute. discriminate.
    + eapply Z.le_trans; [|exact Xf]. unfold SpecFloat.emin. lia.
  - intros a r H HB. cbn [df ieee]. unfold val32. destruct (op_conv 24 128 P24 M24 u32 e32 big U32 E32 B1 B32 53 1024 a r H HB) as (z & -> & ->). eexists. split; [reflexivity|]. apply rn_close; auto.
  - intros. cbn [dadd ieee]. eapply op_add; eauto.
  - intros. cbn [dsub ieee]. eapply op_sub; eauto.
  - intros. cbn [dmul ieee]. eapply op_mul; eauto.
  - intros. cbn [ddiv ieee]. eapply op_div; eauto.
  - intros. cbn [dneg ieee]. eapply op_opp; eauto.
  - intros. cbn [dsqrt ieee]. eapply op_sqrt; eauto.
  - intros. cbn [fadd ieee]. eapply op_add; eauto.
  - intros. cbn [fmul ieee]. eapply op_mul; eauto.
  - intros. cbn [fdiv ieee]. eapply op_div; eauto.
  - intros. cbn [ftoz ieee]. eapply trunc_ok; eauto.
Qed.
