(* Histories of calls on the group objects. *)
From Coq Require Import ZArith List Bool Lia Sorted Permutation.
From Verif Require Import Model_Base Model_Sn Model_Part Model_Comb Model_Tab Model_SnBank Spec_Perm Spec_Part Spec_Tab Spec_SnBank
  Proof_Base Proof_Perm Proof_Part Proof_PartProps Proof_Tab Proof_TabProps Proof_SnBank.
Import ListNotations.
Open Scope Z_scope.

Lemma W0 : W ss0.
Proof. split; [reflexivity|]. unfold nob, zlen. cbn. intros; lia. Qed.

Lemma n_partitions_pl n c : 1 <= n -> n_partitions n c -> c = zlen (pl (n - 1)).
Proof.
  intros Hn (L & H1 & H2 & <-). unfold zlen. f_equal. apply Permutation_length. apply NoDup_Permutation; [auto|apply pl_NoDup|]. intros p. rewrite H2, pl_spec by lia.
  replace (n - 1 + 1) with n by lia. tauto.
Qed.

(* what a call has answered, in terms of the state after it *)
Definition done (q : squery) (a : sanswer) (s : sstate) : Prop :=
  match q with
  | SGroup n => n <= nob s /\ a = SPtr (n - 1)
  | SIrrep lambda => exists p, a = SPtr p /\ has_irrep s (zsum lambda - 1) lambda p
  | SIrrepOf n lambda => exists p, a = SPtr p /\ has_irrep s (n - 1) lambda p
  | SAll n => complete s (n - 1) /\ a = SPtrs (sn_irreps (ob s (n - 1)))
  | SIrrepAt n i => complete s (n - 1) /\ a = SPtr (znth (sn_irreps (ob s (n - 1))) i 0)
  | SNcc n => a = SInt (zlen (pl (n - 1)))
  | SCclass n i => a = SPart (znth (pl (n - 1)) i [])
  | SCindex n lambda => exists v, a = SInt v /\ 0 <= v < zlen (pl (n - 1)) /\ (is_part n lambda -> znth (pl (n - 1)) v [] = lambda)
  | SCclassOf n lambda => exists mu, a = SPart mu /\ (is_part n lambda -> mu = lambda)
  | SOver n m => exists p, a = SPtr p /\ has_over s (n - 1) m p
  end.

(* no irreps of S_n stored *)
Definition fresh (n : Z) (s : sstate) : Prop := n <= nob s -> sn_irreps (ob s (n - 1)) = [].

Lemma complete_len s n : W s -> 1 <= n -> complete s (n - 1) -> zlen (sn_irreps (ob s (n - 1))) = zlen (pl (n - 1)).
Proof.
  intros Hw Hn Hc. destruct (complete_irreps s (n - 1) Hw Hc) as (A & B). rewrite <- (zlen_map (fun q => ir_lambda (iro (ss_irr s) q))). unfold zlen. f_equal.
  apply Permutation_length. apply NoDup_Permutation; [auto|apply pl_NoDup|]. intros p. rewrite B, pl_spec by lia. tauto.
Qed.

Lemma sstep_ok q s : W s -> legal_call q -> exists a s', sstep q s = Ret (a, s') /\ W s' /\ M s s' /\ done q a s' /\
  (forall n, 1 <= n -> ~ irrep_call n q -> fresh n s -> fresh n s').
Proof.
  intros Hw L.
  assert (forall n, 1 <= n -> exists s1, get_Sn n s = Ret (n - 1, s1) /\ W s1 /\ M s s1 /\ n <= nob s1 /\
    (forall k, 1 <= k -> fresh k s -> fresh k s1)) as G.
  { intros n Hn. destruct (get_Sn_ok n s Hw Hn) as (s1 & E & W1 & M1 & N1 & _ & _ & _ & O1 & F1). exists s1. split; [auto|]. split; [auto|]. split; [auto|]. split; [auto|].
    intros k Hk Fk Hk1. destruct (Z_le_gt_dec k (nob s)) as [Q|Q]; [rewrite O1 by lia; apply Fk; auto|apply F1; lia]. }
  assert (forall k s1 s', same_irreps s1 s' -> 1 <= k -> fresh k s1 -> fresh k s') as SI.
  { intros k s1 s' (A & B & C) Hk F Hk1. rewrite C by lia. apply F. lia. }
  destruct q as [n|lambda|n lambda|n|n i|n|n i|n lambda|n lambda|n m]; cbn [sstep legal_call done irrep_call] in *.
  - destruct (G n L) as (s1 & E & W1 & M1 & N1 & F1). rewrite E. cbn [bind fst snd]. exists (SPtr (n - 1)), s1. split; [auto|]. split; [auto|]. split; [auto|]. split; [auto|]. intros k Hk _. apply F1; auto.
  - destruct L as (n & Hn & Hl). rewrite ip_getn_zsum, (is_part_sum _ _ Hl). destruct (G n Hn) as (s1 & E & W1 & M1 & N1 & F1). rewrite E. cbn [bind fst snd].
    destruct (obj_get_irrep_ok (n - 1) lambda s1 W1 ltac:(lia)) as (q & s2 & E2 & W2 & M2 & I2 & N2 & O2 & _); [replace (n - 1 + 1) with n by lia; auto|].
    rewrite E2. cbn [bind fst snd]. exists (SPtr q), s2. split; [auto|]. split; [auto|]. split; [eapply M_trans; eauto|]. split; [exists q; auto|].
    intros k Hk Nk Fk Hk2. rewrite O2 by lia. apply F1; auto. lia.
  - destruct L as (Hn & Hl). destruct (G n Hn) as (s1 & E & W1 & M1 & N1 & F1). rewrite E. cbn [bind fst snd].
    destruct (obj_get_irrep_ok (n - 1) lambda s1 W1 ltac:(lia)) as (q & s2 & E2 & W2 & M2 & I2 & N2 & O2 & _); [replace (n - 1 + 1) with n by lia; auto|].
    rewrite E2. cbn [bind fst snd]. exists (SPtr q), s2. split; [auto|]. split; [auto|]. split; [eapply M_trans; eauto|]. split; [exists q; auto|].
    intros k Hk Nk Fk Hk2. rewrite O2 by lia. apply F1; auto. lia.
  - destruct (G n L) as (s1 & E & W1 & M1 & N1 & F1). rewrite E. cbn [bind fst snd]. unfold obj_all_irreps.
    destruct (make_all_ok (n - 1) s1 W1 ltac:(lia)) as (s2 & E2 & W2 & M2 & N2 & C2 & O2 & _). rewrite E2. cbn [bind]. rewrite (rd_ok _ (n - 1) dob) by (fold (nob s2); lia). cbn [bind fst snd].
    eexists _, s2. split; [reflexivity|]. split; [auto|]. split; [eapply M_trans; eauto|]. split; [split; [auto|reflexivity]|].
    intros k Hk Nk Fk Hk2. rewrite O2 by lia. apply F1; auto. lia.
  - destruct L as (Hn & Hi & c & Hc & Hic). apply n_partitions_pl in Hc; auto. subst c. destruct (G n Hn) as (s1 & E & W1 & M1 & N1 & F1). rewrite E. cbn [bind fst snd]. unfold obj_irrep_at.
    destruct (make_all_ok (n - 1) s1 W1 ltac:(lia)) as (s2 & E2 & W2 & M2 & N2 & C2 & O2 & _). rewrite E2. cbn [bind]. rewrite (rd_ok _ (n - 1) dob) by (fold (nob s2); lia). cbn [bind fst snd].
    fold (ob s2 (n - 1)). rewrite (rd_ok _ i 0) by (rewrite complete_len; auto). cbn [bind fst snd].
    eexists _, s2. split; [reflexivity|]. split; [auto|]. split; [eapply M_trans; eauto|]. split; [split; [auto|reflexivity]|].
    intros k Hk Nk Fk Hk2. rewrite O2 by lia. apply F1; auto. lia.
  - destruct (G n L) as (s1 & E & W1 & M1 & N1 & F1). rewrite E. cbn [bind fst snd]. destruct (ncclasses_ok (n - 1) s1 W1 ltac:(lia)) as (s2 & E2 & W2 & M2 & S2). rewrite E2. cbn [bind fst snd].
    eexists _, s2. split; [reflexivity|]. split; [auto|]. split; [eapply M_trans; eauto|]. split; [reflexivity|]. intros k Hk _ Fk. apply (SI k s1); auto.
  - destruct L as (Hn & Hi & c & Hc & Hic). apply n_partitions_pl in Hc; auto. subst c. destruct (G n Hn) as (s1 & E & W1 & M1 & N1 & F1). rewrite E. cbn [bind fst snd].
    destruct (cclass_ok (n - 1) i s1 W1 ltac:(lia) ltac:(lia)) as (s2 & E2 & W2 & M2 & S2). rewrite E2. cbn [bind fst snd].
    eexists _, s2. split; [reflexivity|]. split; [auto|]. split; [eapply M_trans; eauto|]. split; [reflexivity|]. intros k Hk _ Fk. apply (SI k s1); auto.
  - destruct L as (Hn & Hs & _). destruct (G n Hn) as (s1 & E & W1 & M1 & N1 & F1). rewrite E. cbn [bind fst snd].
    destruct (cindex_ok (n - 1) lambda s1 W1 ltac:(lia) ltac:(lia)) as (v & s2 & E2 & W2 & M2 & S2 & _ & V2 & P2). rewrite E2. cbn [bind fst snd].
    eexists _, s2. split; [reflexivity|]. split; [auto|]. split; [eapply M_trans; eauto|]. split; [exists v; split; [reflexivity|]; split; [auto|]; replace (n - 1 + 1) with n in P2 by lia; auto|]. intros k Hk _ Fk. apply (SI k s1); auto.
  - destruct L as (Hn & Hs & _). destruct (G n Hn) as (s1 & E & W1 & M1 & N1 & F1). rewrite E. cbn [bind fst snd].
    destruct (cindex_ok (n - 1) lambda s1 W1 ltac:(lia) ltac:(lia)) as (v & s2 & E2 & W2 & M2 & S2 & _ & V2 & P2). rewrite E2. cbn [bind fst snd].
    assert (0 <= n - 1 < nob s2) as Hi2 by (destruct S2 as (_ & -> & _); lia).
    destruct (cclass_ok (n - 1) v s2 W2 Hi2 V2) as (s3 & E3 & W3 & M3 & S3). rewrite E3. cbn [bind fst snd].
    eexists _, s3. split; [reflexivity|]. split; [auto|]. split; [eapply M_trans; [exact M1|eapply M_trans; eauto]|].
    split; [eexists; split; [reflexivity|]; replace (n - 1 + 1) with n in P2 by lia; auto|]. intros k Hk _ Fk. apply (SI k s2); auto. apply (SI k s1); auto.
  - destruct (G n L) as (s1 & E & W1 & M1 & N1 & F1). rewrite E. cbn [bind fst snd].
    destruct (get_over_ok (n - 1) m s1 W1 ltac:(lia)) as (q & s2 & E2 & W2 & M2 & S2 & H2). rewrite E2. cbn [bind fst snd].
    eexists _, s2. split; [reflexivity|]. split; [auto|]. split; [eapply M_trans; eauto|]. split; [exists q; auto|]. intros k Hk _ Fk. apply (SI k s1); auto.
Qed.

Lemma srun_ok qs : forall s, W s -> Forall legal_call qs -> exists l s', srun qs s = Ret (l, s') /\ W s' /\ M s s' /\
  (forall n, 1 <= n -> (forall q, In q qs -> ~ irrep_call n q) -> fresh n s -> fresh n s').
Proof.
  induction qs as [|q qs IH]; intros s Hw L; cbn [srun].
  - exists [], s. split; [auto|]. split; [auto|]. split; [apply M_refl|auto].
  - inv L. destruct (sstep_ok q s Hw) as (a & s1 & E1 & W1 & M1 & _ & F1); auto. rewrite E1. cbn [bind fst snd]. destruct (IH s1 W1) as (l & s2 & E2 & W2 & M2 & F2); auto. rewrite E2. cbn [bind fst snd].
    eexists _, s2. split; [reflexivity|]. split; [auto|]. split; [eapply M_trans; eauto|]. intros n Hn Hq Fr. apply F2; auto.
    + intros q' Hq'. apply Hq. right. auto.
    + apply F1; auto. apply Hq. left. auto.
Qed.

Lemma run_reach qs s l : Forall legal_call qs -> srun qs ss0 = Ret (l, s) -> W s.
Proof. intros L E. destruct (srun_ok qs ss0 W0 L) as (l' & s' & E' & W' & _). rewrite E in E'. inversion E'; subst. auto. Qed.

(* ---- C25 ---- *)

Lemma group_history qs1 qs2 n : Forall legal_call qs1 -> Forall legal_call qs2 -> 1 <= n ->
  exists as1 s1 p s2 as2 s3, srun qs1 ss0 = Ret (as1, s1) /\ sstep (SGroup n) s1 = Ret (SPtr p, s2) /\
    srun qs2 s2 = Ret (as2, s3) /\ sstep (SGroup n) s3 = Ret (SPtr p, s3).
Proof.
  intros L1 L2 Hn. destruct (srun_ok qs1 ss0 W0 L1) as (as1 & s1 & E1 & W1 & M1 & _). destruct (sstep_ok (SGroup n) s1 W1 Hn) as (a & s2 & E2 & W2 & M2 & (N2 & ->) & _).
  destruct (srun_ok qs2 s2 W2 L2) as (as2 & s3 & E3 & W3 & M3 & _). exists as1, s1, (n - 1), s2, as2, s3. split; [auto|]. split; [auto|]. split; [auto|].
  cbn [sstep]. destruct (get_Sn_ok n s3 W3 Hn) as (s4 & E4 & _ & _ & _ & Q & _). rewrite E4. cbn [bind fst snd]. rewrite Q; [auto|]. destruct M3; lia.
Qed.

Lemma group_object qs n as1 s1 p s2 : Forall legal_call qs -> 1 <= n -> srun qs ss0 = Ret (as1, s1) -> sstep (SGroup n) s1 = Ret (SPtr p, s2) ->
  exists o, nth_error (ss_objs s2) (Z.to_nat p) = Some o /\ sn_n o = n /\ sn_order o = zfact n /\
    (n = 1 -> sn_prev o = None) /\ (1 < n -> exists p', sn_prev o = Some p' /\ sstep (SGroup (n - 1)) s2 = Ret (SPtr p', s2)).
Proof.
  intros L Hn E1 E2. pose proof (run_reach _ _ _ L E1) as W1. destruct (sstep_ok (SGroup n) s1 W1 Hn) as (a & s2' & E2' & W2 & M2 & (N2 & Ea) & _). rewrite E2 in E2'. inversion E2'; subst a s2'. inversion H0; subst p. clear E2' H0.
  exists (ob s2 (n - 1)). split.
  - unfold ob, znth. apply nth_error_nth'. unfold nob, zlen in N2. lia.
  - pose proof W2 as (_ & H). destruct (H (n - 1) ltac:(lia)) as (H1 & H2 & H3 & _). replace (n - 1 + 1) with n in * by lia. split; [auto|]. split; [auto|]. rewrite H3. destruct (Z.eqb_spec (n - 1) 0).
    + split; [auto|lia].
    + split; [lia|]. intros _. exists (n - 1 - 1). split; [reflexivity|]. cbn [sstep]. destruct (get_Sn_ok (n - 1) s2 W2 ltac:(lia)) as (s4 & E4 & _ & _ & _ & Q & _). rewrite E4. cbn [bind fst snd]. rewrite Q; [auto|]. lia.
Qed.

Lemma group_zero s : sstep (SGroup 0) s = UB.
Proof. reflexivity. Qed.

Lemma group_negative n s : n < 0 -> sstep (SGroup n) s = Throw.
Proof. intros H. cbn [sstep]. unfold get_Sn. destruct (Z.ltb_spec n 0); [reflexivity|lia]. Qed.

(* ---- C26, C27 ---- *)

Lemma nth_error_iro s q : 0 <= q < zlen (ss_irr s) -> nth_error (ss_irr s) (Z.to_nat q) = Some (iro (ss_irr s) q).
Proof. intros H. unfold iro, znth. apply nth_error_nth'. unfold zlen in H. lia. Qed.

Lemma has_irrep_at s i lambda q : W s -> has_irrep s i lambda q -> at_lambda s q lambda.
Proof.
  intros (_ & H) (A & B & C). destruct (H i A) as (_ & _ & _ & (_ & _ & K) & _). destruct (K q B) as (K1 & K2 & K3). rewrite C in K3. exists (ir_tabs (iro (ss_irr s) q)). split; [|auto].
  rewrite nth_error_iro by auto. rewrite <- C. destruct (iro (ss_irr s) q). reflexivity.
Qed.

Lemma at_lambda_mono s s' q lambda : M s s' -> at_lambda s q lambda -> at_lambda s' q lambda.
Proof.
  intros (_ & (x & P) & _) (ts & A & B). exists ts. split; [|auto]. rewrite P. rewrite nth_error_app1; [auto|]. apply nth_error_Some. congruence.
Qed.

Lemma irrep_history qs1 qs2 n lambda : Forall legal_call qs1 -> Forall legal_call qs2 -> 1 <= n -> is_part n lambda ->
  exists as1 s1 p s2 as2 s3 s4 s5, srun qs1 ss0 = Ret (as1, s1) /\ sstep (SIrrep lambda) s1 = Ret (SPtr p, s2) /\ at_lambda s2 p lambda /\
    srun qs2 s2 = Ret (as2, s3) /\ at_lambda s3 p lambda /\ sstep (SIrrep lambda) s3 = Ret (SPtr p, s4) /\ sstep (SIrrepOf n lambda) s3 = Ret (SPtr p, s5).
Proof.
  intros L1 L2 Hn Hl. assert (legal_call (SIrrep lambda)) as Lq by (exists n; auto). pose proof (is_part_sum _ _ Hl) as Hs.
  destruct (srun_ok qs1 ss0 W0 L1) as (as1 & s1 & E1 & W1 & M1 & _). destruct (sstep_ok _ s1 W1 Lq) as (a & s2 & E2 & W2 & M2 & (p & -> & D2) & _).
  destruct (srun_ok qs2 s2 W2 L2) as (as2 & s3 & E3 & W3 & M3 & _). destruct (sstep_ok _ s3 W3 Lq) as (a & s4 & E4 & W4 & M4 & (p4 & -> & D4) & _).
  assert (legal_call (SIrrepOf n lambda)) as Lq5 by (split; auto). destruct (sstep_ok _ s3 W3 Lq5) as (a & s5 & E5 & W5 & M5 & (p5 & -> & D5) & _). rewrite Hs in *.
  pose proof (has_irrep_mono _ _ _ _ _ W2 M3 D2) as D3.
  assert (p4 = p) by (apply (has_irrep_fun s4 (n - 1) lambda); auto; exact (has_irrep_mono _ _ _ _ _ W3 M4 D3)).
  assert (p5 = p) by (apply (has_irrep_fun s5 (n - 1) lambda); auto; exact (has_irrep_mono _ _ _ _ _ W3 M5 D3)). subst p4 p5.
  exists as1, s1, p, s2, as2, s3, s4, s5. split; [auto|]. split; [auto|]. split; [eapply has_irrep_at; eauto|]. split; [auto|]. split; [|auto]. exact (has_irrep_at _ _ _ _ W3 D3).
Qed.

(* after any history irreps[0..] is some enumeration of the partitions, which then stays *)
Lemma irreps_enumerate qs1 qs2 n : Forall legal_call qs1 -> Forall legal_call qs2 -> 1 <= n ->
  exists as1 s1 ps s2 as2 s3 ls, srun qs1 ss0 = Ret (as1, s1) /\ sstep (SAll n) s1 = Ret (SPtrs ps, s2) /\ srun qs2 s2 = Ret (as2, s3) /\
    NoDup ls /\ (forall p, In p ls <-> is_part n p) /\ Forall2 (at_lambda s3) ps ls /\
    forall i, 0 <= i < Z.of_nat (length ps) -> exists s4, sstep (SIrrepAt n i) s3 = Ret (SPtr (nth (Z.to_nat i) ps 0), s4).
Proof.
  intros L1 L2 Hn. destruct (srun_ok qs1 ss0 W0 L1) as (as1 & s1 & E1 & W1 & M1 & _). destruct (sstep_ok (SAll n) s1 W1 Hn) as (a & s2 & E2 & W2 & M2 & (C2 & ->) & _).
  destruct (srun_ok qs2 s2 W2 L2) as (as2 & s3 & E3 & W3 & M3 & _). pose proof (complete_mono _ _ _ W2 M3 C2) as C3.
  destruct (complete_irreps s3 (n - 1) W3 C3) as (N3 & I3). rewrite <- (complete_pre s2 s3 (n - 1)) in E2 by auto.
  exists as1, s1, (sn_irreps (ob s3 (n - 1))), s2, as2, s3, (map (fun q => ir_lambda (iro (ss_irr s3) q)) (sn_irreps (ob s3 (n - 1)))).
  split; [auto|]. split; [auto|]. split; [auto|]. split; [auto|]. split; [intros p; rewrite I3; replace (n - 1 + 1) with n by lia; tauto|]. split.
  - assert (forall q, In q (sn_irreps (ob s3 (n - 1))) -> at_lambda s3 q (ir_lambda (iro (ss_irr s3) q))) as A.
    { intros q Hq. eapply (has_irrep_at s3 (n - 1)); auto. split; [apply C3|auto]. }
    revert A. generalize (sn_irreps (ob s3 (n - 1))). induction l; intros A; cbn [map]; constructor; [apply A; left; auto|]. apply IHl. intros q Hq. apply A. right. auto.
  - intros i Hi. assert (legal_call (SIrrepAt n i)) as Lq.
    { split; [auto|]. split; [lia|]. exists (zlen (pl (n - 1))). split; [|rewrite <- (complete_len s3) by auto; unfold zlen; lia].
      exists (pl (n - 1)). split; [apply pl_NoDup|]. split; [|reflexivity]. intros p. rewrite pl_spec by lia. replace (n - 1 + 1) with n by lia. tauto. }
    destruct (sstep_ok _ s3 W3 Lq) as (a & s4 & E4 & W4 & M4 & (C4 & ->) & _). exists s4. rewrite E4. rewrite (complete_pre s3 s4 (n - 1)) by auto. reflexivity.
Qed.

(* without an earlier request for irreps of S_n the enumeration is the listing order *)
Lemma irreps_fresh_order qs n L i : Forall legal_call qs -> 1 <= n -> (forall q, In q qs -> ~ irrep_call n q) -> integer_partitions n = Ret L -> 0 <= i < Z.of_nat (length L) ->
  exists as1 s1 p s2, srun qs ss0 = Ret (as1, s1) /\ sstep (SIrrepAt n i) s1 = Ret (SPtr p, s2) /\ at_lambda s2 p (nth (Z.to_nat i) L []).
Proof.
  intros Lq Hn Hf EL Hi. rewrite ints_pl in EL by auto. apply Ret_inj in EL. subst L. destruct (srun_ok qs ss0 W0 Lq) as (as1 & s1 & E1 & W1 & M1 & F1).
  assert (fresh n s1) as Fr by (apply F1; auto; intros K; unfold nob, zlen in K; cbn in K; lia).
  cbn [sstep]. destruct (get_Sn_ok n s1 W1 Hn) as (s2 & E2 & W2 & M2 & N2 & _ & _ & _ & O2 & F2). unfold obj_irrep_at.
  destruct (make_all_ok (n - 1) s2 W2 ltac:(lia)) as (s3 & E3 & W3 & M3 & N3 & C3 & _ & P3).
  assert (sn_irreps (ob s2 (n - 1)) = []) as Em by (destruct (Z_le_gt_dec n (nob s1)); [rewrite O2 by lia; auto|apply F2; lia]).
  specialize (P3 Em). pose proof (complete_len _ _ W3 Hn C3) as Len. fold (zlen (pl (n - 1))) in Hi.
  exists as1, s1, (znth (sn_irreps (ob s3 (n - 1))) i 0), s3. rewrite E2. cbn [bind fst snd]. rewrite E3. cbn [bind]. rewrite (rd_ok _ (n - 1) dob) by (fold (nob s3); lia). cbn [bind]. fold (ob s3 (n - 1)).
  rewrite (rd_ok _ i 0) by lia. cbn [bind fst snd]. split; [auto|]. split; [auto|]. change (nth (Z.to_nat i) (pl (n - 1)) []) with (znth (pl (n - 1)) i []). rewrite <- P3.
  rewrite (znth_map _ _ _ 0) by lia. apply (has_irrep_at s3 (n - 1)); auto. split; [apply C3|]. split; [apply znth_In; lia|reflexivity].
Qed.

(* ---- C28 ---- *)

Lemma cclass_history qs n L : Forall legal_call qs -> 1 <= n -> integer_partitions n = Ret L ->
  exists as1 s, srun qs ss0 = Ret (as1, s) /\
    (exists s', sstep (SNcc n) s = Ret (SInt (Z.of_nat (length L)), s')) /\
    (forall i, 0 <= i < Z.of_nat (length L) -> exists s', sstep (SCclass n i) s = Ret (SPart (nth (Z.to_nat i) L []), s')) /\
    (forall i, 0 <= i < Z.of_nat (length L) -> exists s', sstep (SCindex n (nth (Z.to_nat i) L [])) s = Ret (SInt i, s')) /\
    (forall mu, is_part n mu -> exists i s', 0 <= i < Z.of_nat (length L) /\ nth (Z.to_nat i) L [] = mu /\ sstep (SCindex n mu) s = Ret (SInt i, s')) /\
    (forall mu, is_part n mu -> exists s', sstep (SCclassOf n mu) s = Ret (SPart mu, s')).
Proof.
  intros Lq Hn EL. rewrite ints_pl in EL by auto. apply Ret_inj in EL. subst L. destruct (srun_ok qs ss0 W0 Lq) as (as1 & s & E & Hw & _). exists as1, s. split; [auto|].
  assert (n_partitions n (zlen (pl (n - 1)))) as NP.
  { exists (pl (n - 1)). split; [apply pl_NoDup|]. split; [|reflexivity]. intros p. rewrite pl_spec by lia. replace (n - 1 + 1) with n by lia. tauto. }
  assert (forall mu, is_part n mu -> legal_call (SCindex n mu) /\ legal_call (SCclassOf n mu)) as Lmu.
  { intros mu Hmu. cbn. pose proof (is_part_sum _ _ Hmu). destruct Hmu as (A & _). auto. }
  fold (zlen (pl (n - 1))). split; [|split; [|split; [|split]]].
  - destruct (sstep_ok (SNcc n) s Hw Hn) as (a & s' & E' & _ & _ & D & _). exists s'. rewrite E', D. auto.
  - intros i Hi. destruct (sstep_ok (SCclass n i) s Hw) as (a & s' & E' & _ & _ & D & _); [split; [auto|split; [lia|exists (zlen (pl (n - 1))); split; [auto|lia]]]|]. exists s'. rewrite E', D. reflexivity.
  - intros i Hi. assert (is_part n (nth (Z.to_nat i) (pl (n - 1)) [])) as Hp.
    { replace n with (n - 1 + 1) at 1 by lia. apply pl_spec; [lia|]. apply (znth_In (pl (n - 1)) i []). auto. }
    destruct (sstep_ok (SCindex n (nth (Z.to_nat i) (pl (n - 1)) [])) s Hw) as (a & s' & E' & _ & _ & (v & -> & V & D) & _); [apply Lmu; auto|]. exists s'. rewrite E'.
    specialize (D Hp). change (nth (Z.to_nat i) (pl (n - 1)) []) with (znth (pl (n - 1)) i []) in D. apply (NoDup_znth (pl (n - 1)) []) in D; auto; [subst; auto|apply pl_NoDup].
  - intros mu Hmu. destruct (sstep_ok (SCindex n mu) s Hw) as (a & s' & E' & _ & _ & (v & -> & V & D) & _); [apply Lmu; auto|]. exists v, s'. split; [lia|]. split; [apply D; auto|auto].
  - intros mu Hmu. destruct (sstep_ok (SCclassOf n mu) s Hw) as (a & s' & E' & _ & _ & (v & -> & D) & _); [apply Lmu; auto|]. exists s'. rewrite E', (D Hmu). auto.
Qed.

Lemma cclass_foreign qs n as1 s lambda : Forall legal_call qs -> 1 <= n -> srun qs ss0 = Ret (as1, s) -> zsum lambda <> n -> sstep (SCindex n lambda) s = Abort.
Proof.
  intros L Hn E Hs. pose proof (run_reach _ _ _ L E) as Hw. cbn [sstep]. destruct (get_Sn_ok n s Hw Hn) as (s1 & E1 & W1 & _ & N1 & _). rewrite E1. cbn [bind fst snd].
  rewrite cindex_foreign; auto; lia.
Qed.

(* ---- quotients ---- *)

Lemma over_history qs1 qs2 n m : Forall legal_call qs1 -> Forall legal_call qs2 -> 1 <= n ->
  exists as1 s1 p s2 as2 s3 s4, srun qs1 ss0 = Ret (as1, s1) /\ sstep (SOver n m) s1 = Ret (SPtr p, s2) /\ nth_error (ss_quo s2) (Z.to_nat p) = Some (n, m) /\
    srun qs2 s2 = Ret (as2, s3) /\ nth_error (ss_quo s3) (Z.to_nat p) = Some (n, m) /\ sstep (SOver n m) s3 = Ret (SPtr p, s4).
Proof.
  intros L1 L2 Hn. assert (forall s p, W s -> has_over s (n - 1) m p -> nth_error (ss_quo s) (Z.to_nat p) = Some (n, m)) as K.
  { intros s p (_ & H) (A & B). destruct (H (n - 1) A) as (_ & _ & _ & _ & _ & _ & Q). destruct (Q m p B) as (Q1 & Q2). replace (n - 1 + 1) with n in Q2 by lia. rewrite <- Q2. unfold quo, znth. apply nth_error_nth'. unfold zlen in Q1. lia. }
  destruct (srun_ok qs1 ss0 W0 L1) as (as1 & s1 & E1 & W1 & M1 & _). destruct (sstep_ok (SOver n m) s1 W1 Hn) as (a & s2 & E2 & W2 & M2 & (p & -> & D2) & _).
  destruct (srun_ok qs2 s2 W2 L2) as (as2 & s3 & E3 & W3 & M3 & _). destruct (sstep_ok (SOver n m) s3 W3 Hn) as (a & s4 & E4 & W4 & M4 & (p4 & -> & D4) & _).
  pose proof (has_over_mono _ _ _ _ _ M3 D2) as D3.
  assert (p4 = p) by (apply (has_over_fun s4 (n - 1) m); auto; exact (has_over_mono _ _ _ _ _ M4 D3)). subst p4.
  exists as1, s1, p, s2, as2, s3, s4. split; [auto|]. split; [auto|]. split; [apply K; auto|]. split; [auto|]. split; [apply K; auto|auto].
Qed.
