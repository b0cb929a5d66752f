(* The transform as written, with the batched action of irr_view_cycle, is wrong from S5 on. *)
From Coq Require Import ZArith List Bool Lia ZifyBool ZifyNat Reals Lra Sorting.Sorted Permutation.
From Verif Require Import Model_Base Model_Perm Model_Sn Model_Part Model_Comb Model_Tab Model_Irrep Model_Fun Model_FFT.
From Verif Require Import Spec_Perm Spec_Part Spec_Tab Spec_Rep Spec_Four Spec_FFT.
From Verif Require Import Proof_Base Proof_Perm Proof_Sn Proof_SnProps Proof_Part Proof_PartProps Proof_Tab Proof_TabProps Proof_Cycles Proof_Cox Proof_Yor Proof_Sum Proof_Irrep Proof_Rep Proof_Mat Proof_IrrepProps Proof_JM Proof_Conn Proof_Schur Proof_Restr Proof_UpDown Proof_Complete Proof_View Proof_ViewProps Proof_Fun Proof_FFTlay Proof_FFTblk Proof_FFTact Proof_FFTstep Proof_FFTmath Proof_FFT Proof_FFTprops Proof_FFTprops2.
Import ListNotations.
Open Scope Z_scope.

(* ---- the batched action, column by column ---- *)
Definition scale_col (f : Z -> R) (s : Z * R) : Z -> R := let '(i, c) := s in fun a => if a =? i then (c * f a)%R else f a.
Definition givens_col (f : Z -> R) (s : Z * Z * R * R) : Z -> R :=
  let '(i, j, c1, c2) := s in fun a => if a =? j then (- c1 * f j + c2 * f i)%R else if a =? i then (c1 * f i + c2 * f j)%R else f a.
Definition col_tau (o : irr) (tau : Z) (f : Z -> R) : Z -> R :=
  match yor_plan o tau with
  | Ret (nd, diags, giv) => fold_left givens_col (firstn (Z.to_nat ((io_d o - nd) / 2)) giv) (fold_left scale_col (firstn (Z.to_nat nd) diags) f)
  | _ => f
  end.
Definition col_taus (o : irr) (ts : list Z) (f : Z -> R) : Z -> R := fold_left (fun f t => col_tau o t f) ts f.
Definition cyc_taus (a b : Z) : list Z := if a <? b then rev (zrange a b) else zrange b a.
Definition Gview (n : Z) (l : list Z) (a b : Z) (f : Z -> R) (i : Z) : R := col_taus (mkirr n l) (cyc_taus a b) f i.

Definition plan_ok (o : irr) (tau : Z) : Prop :=
  exists nd diags giv, yor_plan o tau = Ret (nd, diags, giv) /\
    (forall i c, In (i, c) diags -> 0 <= i < io_d o) /\ (forall i j c1 c2, In (i, j, c1, c2) giv -> 0 <= i < io_d o /\ 0 <= j < io_d o).

Lemma scale_cols ds T : exists T', fold_left scale_slice ds T = T' /\ tdims T T' /\ forall a b e, t_at T' a b e = fold_left scale_col ds (fun q => t_at T q b e) a.
Proof.
  revert T. induction ds as [|(i, c) ds IH]; intros T; cbn [fold_left]; [exists T; repeat split|]. destruct (IH (scale_slice T (i, c))) as (T' & E & D & V). exists T'. split; auto.
Qed.
Lemma givens_cols ds T : exists T', fold_left givens_slice ds T = T' /\ tdims T T' /\ forall a b e, t_at T' a b e = fold_left givens_col ds (fun q => t_at T q b e) a.
Proof.
  revert T. induction ds as [|(((i, j), c1), c2) ds IH]; intros T; cbn [fold_left]; [exists T; repeat split|]. destruct (IH (givens_slice T (i, j, c1, c2))) as (T' & E & D & V). exists T'. split; auto.
Qed.

Definition ext_on (d : Z) (f f' : Z -> R) : Prop := forall q, 0 <= q < d -> f q = f' q.
Lemma scale_ext d ds f f' : (forall i c, In (i, c) ds -> 0 <= i < d) -> ext_on d f f' -> ext_on d (fold_left scale_col ds f) (fold_left scale_col ds f').
Proof.
  revert f f'. induction ds as [|(i, c) ds IH]; intros f f' H E; cbn [fold_left]; auto. apply IH; [intros; eapply H; right; eauto|]. intros q Hq. unfold scale_col. destruct (q =? i); rewrite E; auto.
Qed.
Lemma givens_ext d ds f f' : (forall i j c1 c2, In (i, j, c1, c2) ds -> 0 <= i < d /\ 0 <= j < d) -> ext_on d f f' -> ext_on d (fold_left givens_col ds f) (fold_left givens_col ds f').
Proof.
  revert f f'. induction ds as [|(((i, j), c1), c2) ds IH]; intros f f' H E; cbn [fold_left]; auto. apply IH; [intros; eapply H; right; eauto|]. destruct (H i j c1 c2 (or_introl eq_refl)) as (Hi & Hj).
  intros q Hq. unfold givens_col. rewrite (E i Hi), (E j Hj), (E q Hq). reflexivity.
Qed.

Lemma in_firstn {A} (x : A) k l : In x (firstn k l) -> In x l.
Proof. rewrite <- (firstn_skipn k l) at 2. rewrite in_app_iff. auto. Qed.

Lemma col_tau_ext o tau f f' : plan_ok o tau -> ext_on (io_d o) f f' -> ext_on (io_d o) (col_tau o tau f) (col_tau o tau f').
Proof.
  intros (nd & diags & giv & E & H1 & H2) X. unfold col_tau. rewrite E. apply givens_ext; [intros; eapply H2; eapply in_firstn; eauto|]. apply scale_ext; auto. intros; eapply H1; eapply in_firstn; eauto.
Qed.
Lemma col_taus_ext o ts f f' : (forall t, In t ts -> plan_ok o t) -> ext_on (io_d o) f f' -> ext_on (io_d o) (col_taus o ts f) (col_taus o ts f').
Proof. revert f f'. induction ts as [|t ts IH]; intros f f' H E; cbn; auto. apply IH; [intros; apply H; right; auto|]. apply col_tau_ext; auto. apply H; left; auto. Qed.

Lemma scale_0 ds : forall f, (forall q, f q = 0%R) -> forall q, fold_left scale_col ds f q = 0%R.
Proof. induction ds as [|(i, c) ds IH]; intros f H; cbn [fold_left]; auto. apply IH. intros q. unfold scale_col. rewrite H. destruct (q =? i); ring. Qed.
Lemma givens_0 ds : forall f, (forall q, f q = 0%R) -> forall q, fold_left givens_col ds f q = 0%R.
Proof. induction ds as [|(((i, j), c1), c2) ds IH]; intros f H; cbn [fold_left]; auto. apply IH. intros q. unfold givens_col. rewrite !H. destruct (q =? j), (q =? i); ring. Qed.
Lemma col_taus_0 o ts : forall f, (forall q, f q = 0%R) -> forall q, col_taus o ts f q = 0%R.
Proof.
  induction ts as [|t ts IH]; intros f H; cbn; auto. apply IH. intros q. unfold col_tau. destruct (yor_plan o t) as [((nd, diags), giv)| | |]; auto. apply givens_0. apply scale_0. auto.
Qed.

Lemma view_tau o tau T : plan_ok o tau -> 1 <= tau <= io_n o - 1 -> t_n0 T = io_d o ->
  exists T', irr_apply_view o tau T = Ret T' /\ tdims T T' /\ forall a b e, t_at T' a b e = col_tau o tau (fun q => t_at T q b e) a.
Proof.
  intros (nd & diags & giv & E & _ & _) Ht N0. unfold irr_apply_view, col_tau. rewrite N0, Z.eqb_refl, E. cbn [assert_ bind]. destruct (Z.ltb_spec tau 1); [lia|]. destruct (Z.ltb_spec (io_n o - 1) tau); [lia|]. cbn [orb].
  set (T1 := fold_left scale_slice (firstn (Z.to_nat nd) diags) T). destruct (scale_cols (firstn (Z.to_nat nd) diags) T) as (X & EX & DX & VX). fold T1 in EX. subst X.
  destruct (givens_cols (firstn (Z.to_nat ((io_d o - nd) / 2)) giv) T1) as (Y & EY & DY & VY). exists Y. split; [rewrite <- EY; reflexivity|]. split; [eapply tdims_trans; eauto|]. intros a b e. rewrite VY.
  assert (forall ds f f', (forall q, f q = f' q) -> forall q, fold_left givens_col ds f q = fold_left givens_col ds f' q) as X.
  { induction ds as [|(((i, j), c1), c2) ds IH]; intros f f' Q q; cbn [fold_left]; auto. apply IH. intros z. unfold givens_col. rewrite !Q. reflexivity. }
  apply X. intros q. apply VX.
Qed.

Lemma view_taus o ts : forall T, (forall t, In t ts -> plan_ok o t /\ 1 <= t <= io_n o - 1) -> t_n0 T = io_d o ->
  exists T', foldM (irr_apply_view o) ts T = Ret T' /\ tdims T T' /\ forall a b e, 0 <= a < io_d o -> t_at T' a b e = col_taus o ts (fun q => t_at T q b e) a.
Proof.
  induction ts as [|t ts IH]; intros T H N0; cbn [foldM].
  - exists T. repeat split.
  - destruct (H t (or_introl eq_refl)) as (P & Ht). destruct (view_tau o t T P Ht N0) as (T1 & E1 & D1 & V1). rewrite E1. cbn [bind].
    assert (forall x, In x ts -> plan_ok o x /\ 1 <= x <= io_n o - 1) as H' by (intros; apply H; right; auto).
    destruct (IH T1 H') as (T2 & E2 & D2 & V2); [destruct D1; congruence|]. exists T2. split; auto. split; [eapply tdims_trans; eauto|]. intros a b e Ha. rewrite V2 by auto. change (col_taus o (t :: ts)) with (fun f => col_taus o ts (col_tau o t f)). cbv beta.
    apply col_taus_ext; auto; [intros; apply H'; auto|]. intros q Hq. apply V1.
Qed.

Lemma cyc_taus_act {S} (act : Z -> S -> outcome S) a b x : act_cycle act (mkCyc a b) x = foldM act (cyc_taus a b) x.
Proof. unfold act_cycle, cyc_taus, zford, zfor. cbn [cy_a cy_b]. destruct (a <? b); [|reflexivity]. replace (b - 1 + 1) with b by lia. reflexivity. Qed.

Lemma cyc_taus_in a b n t : 1 <= a <= n -> 1 <= b <= n -> In t (cyc_taus a b) -> 1 <= t <= n - 1.
Proof. intros Ha Hb. unfold cyc_taus. destruct (Z.ltb_spec a b); rewrite <- ?in_rev, in_zrange; lia. Qed.

Lemma act_by_ext_fix act n G : (forall l T a b, is_part n l -> t_n0 T = io_d (mkirr n l) -> 0 <= t_n1 T -> 0 <= t_n2 T -> 1 <= a <= n -> 1 <= b <= n ->
  exists T', act (mkirr n l) (mkCyc a b) T = Ret T' /\ tdims T T' /\
    forall i s k, 0 <= i < t_n0 T -> 0 <= s < t_n1 T -> 0 <= k < t_n2 T -> t_at T' i s k = G l a b (fun q => t_at T q s k) i) ->
  (forall l a b f f', is_part n l -> 1 <= a <= n -> 1 <= b <= n -> ext_on (io_d (mkirr n l)) f f' -> ext_on (io_d (mkirr n l)) (G l a b f) (G l a b f')) ->
  exists G', act_by act n G' /\ forall l a b f i, is_part n l -> 1 <= a <= n -> 1 <= b <= n -> 0 <= i < io_d (mkirr n l) -> G' l a b f i = G l a b f i.
Proof.
  intros H X.
  set (ok := fun l a b => if in_dec (list_eq_dec Z.eq_dec) l (plist (Z.to_nat (n - 1))) then (1 <=? n) && (1 <=? a) && (a <=? n) && (1 <=? b) && (b <=? n) else false).
  exists (fun l a b f i => if ok l a b then G l a b f i else 0%R).
  assert (forall l a b, is_part n l -> 1 <= a <= n -> 1 <= b <= n -> ok l a b = true) as K.
  { intros l a b P Ha Hb. unfold ok. destruct (in_dec (list_eq_dec Z.eq_dec) l (plist (Z.to_nat (n - 1)))) as [|N]; [lia|]. destruct N. apply plist_spec. replace (Z.of_nat (Z.to_nat (n - 1)) + 1) with n by lia. auto. }
  split; [split|].
  - intros l a b f f' i E Hi. destruct (ok l a b) eqn:Q; [|reflexivity]. unfold ok in Q. destruct (in_dec (list_eq_dec Z.eq_dec) l (plist (Z.to_nat (n - 1)))) as [I|]; [|discriminate].
    apply plist_spec in I. replace (Z.of_nat (Z.to_nat (n - 1)) + 1) with n in I by lia. apply X; auto; lia.
  - intros l T a b P N0 N1 N2 Ha Hb. destruct (H l T a b P N0 N1 N2 Ha Hb) as (T' & E & D & V). exists T'. split; auto. split; auto. intros. rewrite K by auto. auto.
  - intros. rewrite K by auto. reflexivity.
Qed.

(* ---- the transform when the action of the last level is only known column by column ---- *)
Section Last.
  Variable m : Z.
  Hypothesis Hm : 1 <= m.
  Variable act : irr -> ccycle -> ten -> outcome ten.
  Variable K : nat.
  Hypothesis HA : forall k, (0 < k <= K)%nat -> act_ok act (m + Z.of_nat k).
  Variable G : list Z -> Z -> Z -> (Z -> R) -> Z -> R.
  Hypothesis HG : act_by act (m + Z.of_nat (S K)) G.
  Variable F : fft.
  Hypothesis HF : ff_levels F = map (level m) (seq 0 (S (S K))).

  Lemma rd_level k : (k <= S K)%nat -> rd (ff_levels F) (Z.of_nat k) = Ret (level m k).
  Proof.
    intros Hk. rewrite (rd_ok _ _ (level m 0)) by (rewrite HF, zlen_map; unfold zlen; rewrite seq_length; lia). rewrite HF. unfold znth. rewrite Nat2Z.id. rewrite (map_nth (level m)), seq_nth by lia. reflexivity.
  Qed.

  Lemma forward_last v : zlen v = ncos m (S K) ->
    exists w, fft_up act F v = Ret w /\ sv_ok m (S K) (fun l i y => upG m G K (fourV m (fun e => znth v e 0%R) K) l i 0 y) w.
  Proof.
    intros Lv. unfold fft_up, mv_of_values. destruct (mkirr_ok 1 [1] (is_part_row 1 ltac:(lia)) ltac:(lia)) as (-> & _). cbn [bind].
    assert (zlen (ff_levels F) = Z.of_nat K + 1 + 1) as -> by (rewrite HF, zlen_map; unfold zlen; rewrite seq_length; lia).
    set (f := fun e => znth v e 0%R). rewrite zfor_snoc by lia.
    destruct (zfor_inv (fun i u => exists N, 0 < N /\ N * ncos m (Z.to_nat (i - 2)) = ncos m (S K) /\ mv_ok m (Z.to_nat (i - 2)) N (fourV m f (Z.to_nat (i - 2))) u)
       2 (Z.of_nat K + 1 + 1) (fun l v => L <- rd (ff_levels F) (l - 1) ;; tlev_up act L v) [mkMpart (mkirr 1 [1]) (mkTen 1 (zlen v) 1 (fun _ s _ => nth (Z.to_nat s) v 0%R))]) as (u & E & N & HN & EN & W).
    - lia.
    - exists (ncos m (S K)). pose proof (ncos_pos m Hm (S K)). split; auto. change (Z.to_nat (2 - 2)) with 0%nat. change (ncos m 0) with 1. split; [lia|]. unfold mv_ok.
      assert (m + Z.of_nat 0 = m) as E0 by lia.
      replace (qlist m (m + Z.of_nat 0)) with [[m]] by (rewrite E0; symmetry; apply qlist_seed; auto). constructor; [|constructor].
      split; [lia|]. unfold ten_ok. cbn [mp_t t_n0 t_n1 t_n2 t_at]. rewrite E0. rewrite d_row by auto. split; auto. split; auto. split; [rewrite mlt_0; auto|]. intros i s y Hi Hs Hy.
      rewrite fourV_0; auto; rewrite E0; [rewrite qlist_seed by auto; left; auto|rewrite d_row by auto; auto].
    - intros i u Hi (N & HN & EN & W). set (k := Z.to_nat (i - 2)) in *. replace (Z.to_nat (i + 1 - 2)) with (S k) by lia. replace (i - 1) with (Z.of_nat (S k)) by lia. rewrite rd_level by lia. cbn [bind].
      assert (exists N', 0 < N' /\ N = N' * (m + Z.of_nat (S k)) /\ N' * ncos m (S k) = ncos m (S K)) as (N' & HN' & -> & EN').
      { destruct (ncos_next m Hm rows_cycle (S K) (fun j _ => rows_act_ok (m + Z.of_nat j) ltac:(lia)) k N) as (N' & A & B & C); auto; [lia|]. exists N'. auto. }
      destruct (up_ok m Hm act k N' (fourV m f k) u) as (w & Ew & Ww); auto; [apply HA; lia|lia|]. exists w. split; auto. exists N'. split; auto. split; auto.
      eapply mv_ok_ext; [|exact Ww]. intros l i' s y Hl Hi' Hs Hy. apply four_step; auto; lia.
    - rewrite E. cbn [bind]. replace (Z.to_nat (Z.of_nat K + 1 + 1 - 2)) with K in * by lia. replace (Z.of_nat K + 1 + 1 - 1) with (Z.of_nat (S K)) by lia. rewrite rd_level by lia. cbn [bind].
      assert (N = 1 * (m + Z.of_nat (S K))) as -> by (pose proof (ncos_pos m Hm K); cbn [ncos] in EN; nia).
      destruct (up_by m Hm act G K 1 (fourV m f K) u HG W ltac:(lia)) as (w & Ew & Ww). rewrite Ew. cbn [bind].
      destruct (as_vec_ok m rows_cycle (S K) (fun j _ => rows_act_ok (m + Z.of_nat j) ltac:(lia)) _ _ Ww) as (x & Ex & Wx). exists x. split; auto.
  Qed.
End Last.

Lemma rsum_all0 d : rsum d (fun _ => 0%R) = 0%R.
Proof. rewrite rsum_lsum. apply lsum_0. auto. Qed.

(* ---- S5 ---- *)
Ltac plan5 := eexists; eexists; eexists; split; [lazy -[IZR sqrt Rdiv Rminus Rplus Rmult Rinv Ropp]; reflexivity|];
  split; [intros i c H; cbn in H; repeat (destruct H as [H|H]; [injection H as <- _; vm_compute; intuition discriminate|]); destruct H
         |intros i j c1 c2 H; cbn in H; repeat (destruct H as [H|H]; [injection H as <- <- _ _; vm_compute; intuition discriminate|]); destruct H].

Lemma plans5 l tau : is_part 5 l -> 1 <= tau <= 4 -> plan_ok (mkirr 5 l) tau.
Proof.
  intros P Ht. assert (In l (plist 4)) as I by (apply plist_spec; exact P). vm_compute in I.
  assert (tau = 1 \/ tau = 2 \/ tau = 3 \/ tau = 4) as T by lia.
  repeat (destruct I as [<-|I]); [..|destruct I]; destruct T as [->|[->|[->| ->]]]; plan5.
Qed.

Lemma view5 : exists G, act_by irr_view_cycle 5 G /\ forall l a b f i, is_part 5 l -> 1 <= a <= 5 -> 1 <= b <= 5 -> 0 <= i < io_d (mkirr 5 l) -> G l a b f i = Gview 5 l a b f i.
Proof.
  apply act_by_ext_fix.
  - intros l T a b P N0 N1 N2 Ha Hb. unfold irr_view_cycle. rewrite cyc_taus_act. destruct (view_taus (mkirr 5 l) (cyc_taus a b) T) as (T' & E & D & V).
    + intros t Ht. apply (cyc_taus_in a b 5) in Ht; auto. split; [apply plans5; auto; lia|cbn; lia].
    + auto.
    + exists T'. split; auto. split; auto. intros i s k Hi _ _. apply V. lia.
  - intros l a b f f' P Ha Hb E. apply col_taus_ext; auto. intros t Ht. apply (cyc_taus_in a b 5) in Ht; auto. apply plans5; auto; lia.
Qed.

(* the generator (2,3), applied last, clears row 0 of the shape [3;2] *)
Lemma row0_cleared f : Gview 5 [3;2] 2 5 f 0 = 0%R.
Proof.
  unfold Gview. change (cyc_taus 2 5) with [4; 3; 2]. unfold col_taus. cbn [fold_left]. generalize (col_tau (mkirr 5 [3;2]) 3 (col_tau (mkirr 5 [3;2]) 4 f)) as g. intros g.
  lazy -[IZR sqrt Rdiv Rminus Rplus Rmult Rinv Ropp]. lra.
Qed.

Definition delta72 : sfun := mkFun 5 (map (fun e => if e =? 72 then 1%R else 0%R) (zrange 0 120)).

Lemma delta72_fun : is_fun 5 delta72.
Proof. split; reflexivity. Qed.

Lemma delta72_at e : znth (sf_v delta72) e 0%R = if e =? 72 then 1%R else 0%R.
Proof.
  cbn [delta72 sf_v]. destruct (Z.ltb_spec e 0).
  - unfold znth. replace (Z.to_nat e) with 0%nat by lia. destruct (Z.eqb_spec e 72); [lia|]. reflexivity.
  - destruct (Z.ltb_spec e 120).
    + rewrite (znth_map _ _ _ 0) by (rewrite zlen_zrange; lia). rewrite znth_zrange by lia. rewrite Z.add_0_l. reflexivity.
    + unfold znth. rewrite nth_overflow by (rewrite map_length, zrange_length; lia). destruct (Z.eqb_spec e 72); [lia|reflexivity].
Qed.

Lemma view_forward : exists w, fft_forward irr_view_cycle (fftn 5) delta72 = Ret w /\ length w = 7%nat /\
  forall P, nth_error w 2 = Some P -> forall y, 0 <= y < 5 -> m_at (sp_mat P) 0 y = 0%R.
Proof.
  destruct view5 as (G & HG & VG).
  destruct (forward_last 1 ltac:(lia) irr_view_cycle 3) with (G := G) (F := fftn 5) (v := sf_v delta72) as (w & E & W); auto.
  { intros k Hk. apply view_act_ok. lia. }
  exists w. split; [exact E|]. unfold sv_ok in W. change (1 + Z.of_nat 4) with 5 in W. change (qlist 1 5) with (plist 4) in W.
  change (plist 4) with [[5]; [4;1]; [3;2]; [3;1;1]; [2;2;1]; [2;1;1;1]; [1;1;1;1;1]] in W.
  assert (length w = 7%nat) as L by (pose proof (F2_len _ _ _ W) as Q; unfold zlen in Q; cbn [length] in Q; lia). split; auto.
  intros P EP y Hy. pose proof (F2_nth _ _ _ 2 [] P W ltac:(cbn; lia)) as K. cbn [nth] in K. rewrite (nth_error_nth w 2 P EP) in K. destruct K as (_ & _ & _ & K).
  assert (is_part 5 [3;2]) as P32 by (apply decb_part; reflexivity).
  assert (io_d (mkirr 5 [3;2]) = 5) as D5 by (vm_compute; reflexivity).
  assert (mlt 1 4 [3;2] = 5) as M5 by (vm_compute; reflexivity).
  change (1 + Z.of_nat 4) with 5 in K. rewrite D5, M5 in K. rewrite K by lia. unfold upG. change (1 + Z.of_nat 4) with 5.
  rewrite (rsum_ext _ _ (fun _ => 0%R)); [apply rsum_all0|]. intros j Hj. rewrite VG by (auto; lia). destruct (Z.eq_dec j 3) as [->|N]; [apply row0_cleared|].
  unfold Gview. apply col_taus_0. intros q. unfold blockV. apply lsum_0. intros r _. destruct (_ && _); [|reflexivity]. unfold fourV. rewrite (rsum_ext _ _ (fun _ => 0%R)); [apply rsum_all0|].
  intros e He. change (ncos 1 3) with 24 in *. rewrite delta72_at. destruct (Z.eqb_spec ((0 * 5 + j) * 24 + e) 72); [lia|]. ring.
Qed.

Lemma four_delta p0 n G l i j : 1 <= n -> is_perm n p0 -> G p0 = 1%R -> (forall p, is_perm n p -> p <> p0 -> G p = 0%R) -> four n G l i j = rr n l (pinv p0) i j.
Proof.
  intros Hn P E H. assert (lists_Sn n (all_perms n)) as L by (apply all_perms_lists; lia). unfold four. rewrite (lsum_single _ p0).
  - rewrite E. ring.
  - apply L.
  - apply L. auto.
  - intros p Hp N. apply L in Hp. rewrite H by auto. ring.
Qed.

(* the row of an orthogonal matrix is not zero *)
Lemma rr_row_nonzero n l p i : is_part n l -> 1 <= n -> is_perm n p -> 0 <= i < io_d (mkirr n l) -> ~ (forall j, 0 <= j < io_d (mkirr n l) -> rr n l p i j = 0%R).
Proof.
  intros PL Hn P Hi H. destruct (mkirr_ok n l PL Hn) as (_ & G). pose proof (rr_mul n l p (pinv p) i i PL Hn P (is_perm_pinv n p P) Hi) as M. rewrite (pmul_pinv_r n) in M by auto.
  rewrite (rsum_ext _ _ (fun _ => 0%R)) in M by (intros k Hk; rewrite H by auto; ring). rewrite rsum_all0 in M. unfold rr in M. rewrite (rho_id n l _ G) in M by auto. unfold delta in M. destruct (Z.eq_dec i i); [lra|contradiction].
Qed.

Lemma as_written_wrong : exists F w ls, fft_new 5 = Ret F /\ sf_n delta72 = 5 /\ length (sf_v delta72) = fact (Z.to_nat 5) /\ integer_partitions 5 = Ret ls /\ fft_forward irr_view_cycle F delta72 = Ret w /\
  forall G, (forall p, is_perm 5 p -> sf_at delta72 p = Ret (G p)) -> ~ Forall2 (fourier_part 5 G) ls w.
Proof.
  destruct view_forward as (w & E & L & Z0). exists (fftn 5), w, (plist 4). split; [apply fft_new_ok; lia|]. split; [reflexivity|]. split; [reflexivity|]. split; [apply integer_partitions_ok; lia|]. split; auto.
  intros G HG W. destruct w as [|P0 [|P1 [|P w]]]; try discriminate L. specialize (Z0 P eq_refl).
  assert (2 < length (plist 4))%nat as L2 by (vm_compute; lia). pose proof (F2_nth _ _ _ 2 [] P W L2) as K. change (nth 2 (plist 4) []) with [3;2] in K. cbn [nth] in K.
  assert (is_part 5 [3;2]) as P32 by (apply decb_part; reflexivity). apply fourier_fpart in K; auto; [|lia]. destruct K as (_ & _ & _ & K).
  assert (io_d (mkirr 5 [3;2]) = 5) as D5 by (vm_compute; reflexivity). set (p0 := elt 5 72). assert (is_perm 5 p0) as Pp by (apply (is_perm_elt_z 5); lia).
  apply (rr_row_nonzero 5 [3;2] (pinv p0) 0 P32 ltac:(lia) (is_perm_pinv 5 _ Pp)); rewrite D5; [lia|]. intros j Hj. rewrite <- (Z0 j) by auto. rewrite K by (rewrite D5; lia). symmetry. apply (four_delta p0); auto; [lia| |].
  - pose proof (HG p0 Pp) as Q. rewrite (sf_at_ok 5) in Q by (auto using delta72_fun; lia). apply Ret_inj in Q. rewrite <- Q. unfold fv. change (Z.to_nat (sf_n delta72)) with 5%nat. change (idn 5 p0) with 72. rewrite delta72_at. reflexivity.
  - intros p Hp N. pose proof (HG p Hp) as Q. rewrite (sf_at_ok 5) in Q by (auto using delta72_fun; lia). apply Ret_inj in Q. rewrite <- Q. unfold fv. change (Z.to_nat (sf_n delta72)) with 5%nat. rewrite delta72_at. destruct (Z.eqb_spec (idn 5 p) 72) as [I|]; [|reflexivity].
    destruct N. unfold p0. rewrite <- I. symmetry. apply (elt_idn_z 5); auto.
Qed.
