(* The transform as written, with the batched action of irr_view_cycle, leaves its tables from S6 on. *)
From Coq Require Import ZArith List Bool Lia ZifyBool ZifyNat Reals Lra Sorting.Sorted Permutation.
From Verif Require Import Model_Base Model_Perm Model_Sn Model_Part Model_Comb Model_Tab Model_Irrep Model_Fun Model_FFT.
From Verif Require Import Spec_Perm Spec_Part Spec_Tab Spec_Rep Spec_Four Spec_FFT.
From Verif Require Import Proof_Base Proof_Perm Proof_Sn Proof_SnProps Proof_Part Proof_PartProps Proof_Tab Proof_TabProps Proof_Cycles Proof_Cox Proof_Yor Proof_Sum Proof_Irrep Proof_Rep Proof_Mat Proof_IrrepProps Proof_JM Proof_Conn Proof_Schur Proof_Restr Proof_UpDown Proof_Complete Proof_View Proof_ViewProps Proof_Fun Proof_FFTlay Proof_FFTblk Proof_FFTact Proof_FFTstep Proof_FFTmath Proof_FFT Proof_FFTprops Proof_FFTprops2 Proof_FFTwrong.
Import ListNotations.
Open Scope Z_scope.

(* the shapes of S6 in front of [3;2;1] have tables *)
Lemma plans6 l tau : In l [[6]; [5;1]; [4;2]; [4;1;1]; [3;3]] -> 1 <= tau <= 5 -> plan_ok (mkirr 6 l) tau.
Proof.
  intros I Ht. assert (tau = 1 \/ tau = 2 \/ tau = 3 \/ tau = 4 \/ tau = 5) as T by lia. cbn in I.
  repeat (destruct I as [<-|I]); [..|destruct I]; destruct T as [->|[->|[->|[->| ->]]]]; plan5.
Qed.

(* [3;2;1] has not: slot 10 of 9 *)
Lemma plan321 : yor_plan (mkirr 6 [3;2;1]) 5 = UB.
Proof. lazy -[IZR sqrt Rdiv Rminus Rplus Rmult Rinv Ropp]. reflexivity. Qed.

Lemma view321 T : t_n0 T = 16 -> irr_apply_view (mkirr 6 [3;2;1]) 5 T = UB.
Proof. intros E. unfold irr_apply_view. rewrite plan321, E. reflexivity. Qed.

Lemma view_by_5 n : 2 <= n <= 5 -> exists G, act_by irr_view_cycle n G.
Proof.
  intros Hn. destruct (Z.eq_dec n 5) as [->|N]; [destruct view5 as (G & H & _); exists G; exact H|]. eexists. apply act_ok_by. apply view_act_ok. lia.
Qed.

(* level 6 *)
Lemma slices_run l N c T : In l [[6]; [5;1]; [4;2]; [4;1;1]; [3;3]] -> 0 <= N -> 0 <= c -> t_n0 T = io_d (mkirr 6 l) -> t_n1 T = N * 6 -> t_n2 T = c ->
  exists q, zfor 0 6 (fun j q => act_slice irr_view_cycle N 6 j (mkCyc (6 - j) 6) q) (mkMpart (mkirr 6 l) T) = Ret q.
Proof.
  intros Hl HN Hc E0 E1 E2. destruct (zfor_inv (fun j Q => mp_irr Q = mkirr 6 l /\ t_n0 (mp_t Q) = io_d (mkirr 6 l) /\ t_n1 (mp_t Q) = N * 6 /\ t_n2 (mp_t Q) = c) 0 6 (fun j q => act_slice irr_view_cycle N 6 j (mkCyc (6 - j) 6) q) (mkMpart (mkirr 6 l) T)) as (q & E & _); [lia|auto| |exists q; exact E].
  intros j (o, T1) Hj (Eo & A0 & A1 & A2). cbn [mp_irr mp_t] in *. subst o. unfold act_slice. cbn [mp_irr mp_t]. unfold slice_get. rewrite A0, A1, A2. replace ((0 <=? N) && (N * 6 <=? N * 6) && inrange j 6) with true by (unfold inrange; lia). cbn [bind].
  unfold irr_view_cycle. rewrite cyc_taus_act.
  destruct (view_taus (mkirr 6 l) (cyc_taus (6 - j) 6) (mkTen (io_d (mkirr 6 l)) N c (fun i s k => t_at T1 i (s * 6 + j) k))) as (S & ES & (D0 & D1 & D2) & _).
  - intros t Ht. apply (cyc_taus_in _ _ 6) in Ht; [|lia|lia]. split; [apply plans6; auto; lia|cbn; lia].
  - reflexivity.
  - rewrite ES. cbn [bind]. eexists. split; [reflexivity|]. cbn [mp_irr mp_t]. unfold slice_put. cbn [t_n0 t_n1 t_n2]. auto.
Qed.

Lemma slices_over N T : 0 <= N -> t_n0 T = 16 -> t_n1 T = N * 6 -> 
  zfor 0 6 (fun j q => act_slice irr_view_cycle N 6 j (mkCyc (6 - j) 6) q) (mkMpart (mkirr 6 [3;2;1]) T) = UB.
Proof.
  intros HN E0 E1. rewrite zfor_cons by lia. unfold act_slice at 1. cbn [mp_irr mp_t]. unfold slice_get. rewrite E0, E1. replace ((0 <=? N) && (N * 6 <=? N * 6) && inrange 0 6) with true by (unfold inrange; lia). cbn [bind].
  unfold irr_view_cycle at 1. rewrite cyc_taus_act. change (cyc_taus (6 - 0) 6) with (@nil Z). cbn [foldM bind]. rewrite zfor_cons by lia. unfold act_slice at 1. cbn [mp_irr mp_t]. unfold slice_get, slice_put. cbn [t_n0 t_n1 t_n2]. rewrite E0, E1.
  replace ((0 <=? N) && (N * 6 <=? N * 6) && inrange (0 + 1) 6) with true by (unfold inrange; lia). cbn [bind]. unfold irr_view_cycle at 1. rewrite cyc_taus_act. change (cyc_taus (6 - (0 + 1)) 6) with [5]. cbn [foldM]. rewrite view321 by reflexivity. reflexivity.
Qed.

Lemma level6_over N V v : 0 <= N -> mv_ok 1 4 (N * 6) V v -> tlev_up irr_view_cycle (level 1 5) v = UB.
Proof.
  intros HN F. unfold tlev_up, level. cbn [tl_n tl_parts]. rewrite (getN_ok 1 ltac:(lia) 4 _ V v F). cbn [bind]. change (1 + Z.of_nat 5) with 6.
  assert (cdiv (N * 6) 6 = Ret N) as -> by (unfold cdiv; cbn [Z.eqb]; rewrite Z.quot_mul by lia; reflexivity).
  cbn [bind]. rewrite foldM_map. change (qlist 1 6) with ([[6]; [5;1]; [4;2]; [4;1;1]; [3;3]] ++ [[3;2;1]] ++ [[3;1;1;1]; [2;2;2]; [2;2;1;1]; [2;1;1;1;1]; [1;1;1;1;1;1]]). rewrite foldM_app.
  assert (forall l, In l (qlist 1 6) -> exists T, tpart_up (lvpart 1 5 l) v = Ret (mkMpart (mkirr 6 l) T) /\ t_n0 T = io_d (mkirr 6 l) /\ t_n1 T = N * 6) as TP.
  { intros l Hl. destruct (tpart_up_ok 1 ltac:(lia) 4 (N * 6) V v l F ltac:(lia) Hl) as (T & ET & (A & B & _)). exists T. auto. }
  assert (forall l, In l [[6]; [5;1]; [4;2]; [4;1;1]; [3;3]] -> In l (qlist 1 6)) as I5 by (intros l Hl; change (qlist 1 6) with ([[6]; [5;1]; [4;2]; [4;1;1]; [3;3]] ++ [[3;2;1]] ++ [[3;1;1;1]; [2;2;2]; [2;2;1;1]; [2;1;1;1;1]; [1;1;1;1;1;1]]); apply in_app_iff; auto).
  destruct (foldM_snoc (fun (_ : list Z) (_ : mpart) => True) (fun l w => q <- tpart_up (lvpart 1 5 l) v ;; q <- zfor 0 6 (fun j q => act_slice irr_view_cycle N 6 j (mkCyc (6 - j) 6) q) q ;; Ret (w ++ [q])) [[6]; [5;1]; [4;2]; [4;1;1]; [3;3]]) as (w & E & _).
  { intros l w Hl. destruct (TP l (I5 l Hl)) as (T & ET & A & B). rewrite ET. cbn [bind].
    destruct (tpart_up_ok 1 ltac:(lia) 4 (N * 6) V v l F ltac:(lia) (I5 l Hl)) as (T' & ET' & (_ & _ & C & _)). rewrite ET in ET'. injection ET' as <-.
    destruct (slices_run l N _ T Hl HN (mlt_nonneg 1 5 l) A B C) as (q & ->). cbn [bind]. exists q. auto. }
  rewrite E. cbn [bind app foldM]. destruct (TP [3;2;1]) as (T & ET & A & B); [change (qlist 1 6) with ([[6]; [5;1]; [4;2]; [4;1;1]; [3;3]] ++ [[3;2;1]] ++ [[3;1;1;1]; [2;2;2]; [2;2;1;1]; [2;1;1;1;1]; [1;1;1;1;1;1]]); apply in_app_iff; right; left; reflexivity|].
  rewrite ET. cbn [bind]. rewrite slices_over; auto.
Qed.

Lemma zfor_split {S} lo mid hi (body : Z -> S -> outcome S) s : lo <= mid <= hi -> zfor lo hi body s = (x <- zfor lo mid body s ;; zfor mid hi body x).
Proof. intros H. unfold zfor. rewrite (zrange_app lo mid hi) by lia. apply foldM_app. Qed.

Theorem forward_over n f : 6 <= n -> is_fun n f -> fft_forward irr_view_cycle (fftn n) f = UB.
Proof.
  intros Hn (_ & Lv). unfold fft_forward, fft_up, mv_of_values. destruct (mkirr_ok 1 [1] (is_part_row 1 ltac:(lia)) ltac:(lia)) as (-> & _). cbn [bind].
  set (K := Z.to_nat (n - 1)). pose proof (fftn_levels n ltac:(lia)) as HF. fold K in HF. set (v := sf_v f) in *. set (F := fftn n) in *.
  assert (HR : forall k, (k <= K)%nat -> rd (ff_levels F) (Z.of_nat k) = Ret (level 1 k)) by (intros k Hk; apply (levels_rd 1 rows_cycle K); [intros j Hj; apply rows_act_ok; lia|exact HF|exact Hk]).
  assert (zlen (ff_levels F) = n) as -> by (rewrite HF, zlen_map; unfold zlen; rewrite seq_length; lia).
  assert (zlen v = ncos 1 K) as Lv' by (rewrite ncos_1, Lv; f_equal; lia).
  rewrite (zfor_split 2 6) by lia.
  destruct (zfor_inv (fun i u => exists N V, 0 < N /\ N * ncos 1 (Z.to_nat (i - 2)) = ncos 1 K /\ mv_ok 1 (Z.to_nat (i - 2)) N V u)
     2 6 (fun l v => L <- rd (ff_levels F) (l - 1) ;; tlev_up irr_view_cycle L v) [mkMpart (mkirr 1 [1]) (mkTen 1 (zlen v) 1 (fun _ s _ => nth (Z.to_nat s) v 0%R))]) as (u & E & N & V & HN & EN & W).
  - lia.
  - exists (ncos 1 K), (fun _ _ s _ => nth (Z.to_nat s) v 0%R). pose proof (ncos_pos 1 ltac:(lia) K). split; auto. change (Z.to_nat (2 - 2)) with 0%nat. change (ncos 1 0) with 1. split; [lia|].
    unfold mv_ok. change (qlist 1 (1 + Z.of_nat 0)) with [[1]]. constructor; [|constructor]. split; [lia|]. unfold ten_ok. cbn [mp_t t_n0 t_n1 t_n2 t_at]. repeat split; auto.
  - intros i u Hi (N & V & HN & EN & W). set (k := Z.to_nat (i - 2)) in *. replace (Z.to_nat (i + 1 - 2)) with (S k) by lia. replace (i - 1) with (Z.of_nat (S k)) by lia. rewrite HR by lia. cbn [bind].
    destruct (ncos_next 1 ltac:(lia) rows_cycle K (fun j _ => rows_act_ok (1 + Z.of_nat j) ltac:(lia)) k N ltac:(lia) EN) as (N' & HN' & -> & EN').
    destruct (view_by_5 (1 + Z.of_nat (S k)) ltac:(lia)) as (G & HG).
    destruct (up_by 1 ltac:(lia) irr_view_cycle G k N' V u HG W ltac:(lia)) as (w & Ew & Ww). exists w. split; auto. exists N', (upG 1 G k V). auto.
  - rewrite E. cbn [bind]. rewrite zfor_cons by lia. change (6 - 1) with (Z.of_nat 5). rewrite HR by lia. cbn [bind]. change (Z.to_nat (6 - 2)) with 4%nat in *.
    destruct (ncos_next 1 ltac:(lia) rows_cycle K (fun j _ => rows_act_ok (1 + Z.of_nat j) ltac:(lia)) 4 N ltac:(lia) EN) as (N' & HN' & -> & EN').
    rewrite (level6_over N' V u); [reflexivity|lia|]. exact W.
Qed.

(* ---- the inverse ---- *)
Lemma foldM_never {S I} (body : I -> S -> outcome S) l i : In i l -> (forall s s', body i s <> Ret s') -> forall s s', foldM body l s <> Ret s'.
Proof.
  induction l as [|x l IH]; intros Hi H s s' E; [destruct Hi|]. cbn [foldM] in E. destruct (body x s) as [y| | |] eqn:Ex; try discriminate. cbn [bind] in E. destruct Hi as [->|Hi]; [exact (H _ _ Ex)|exact (IH Hi H _ _ E)].
Qed.
Lemma foldM_pinv {S I} (P : S -> Prop) (body : I -> S -> outcome S) l s s' : P s -> (forall i s s', In i l -> P s -> body i s = Ret s' -> P s') -> foldM body l s = Ret s' -> P s'.
Proof.
  revert s. induction l as [|x l IH]; intros s Hs H E; cbn [foldM] in E; [injection E as <-; auto|]. destruct (body x s) as [y| | |] eqn:Ex; try discriminate. cbn [bind] in E. apply (IH y); auto; [eapply H; eauto; left; auto|]. intros; eapply H; eauto; right; auto.
Qed.

(* irreps and sizes of a vector at level k *)
Definition key (P : mpart) : irr * Z * Z := (mp_irr P, t_n0 (mp_t P), t_n1 (mp_t P)).
Definition shaped (k : nat) (N : Z) (V : list mpart) : Prop :=
  map key V = map (fun l => (mkirr (1 + Z.of_nat k) l, io_d (mkirr (1 + Z.of_nat k) l), N)) (qlist 1 (1 + Z.of_nat k)).

Lemma key_wr V i P Q V' : rd V i = Ret P -> key Q = key P -> wr V i Q = Ret V' -> map key V' = map key V.
Proof.
  intros E K W. unfold wr in W. unfold rd in E. destruct ((0 <=? i) && (i <? zlen V)) eqn:B; [|discriminate]. apply Ret_inj in W. subst V'. unfold zlen in B. destruct (0 <=? i); [|discriminate].
  destruct (nth_error V (Z.to_nat i)) as [p|] eqn:En; [|discriminate]. apply Ret_inj in E. subst p. rewrite map_app. cbn [map]. rewrite K.
  apply nth_error_split in En as (l1 & l2 & -> & El). rewrite <- El. rewrite firstn_app, firstn_all, Nat.sub_diag. cbn [firstn]. rewrite app_nil_r.
  rewrite skipn_app. rewrite skipn_all2 by lia. replace (S (length l1) - length l1)%nat with 1%nat by lia. cbn [skipn app]. rewrite map_app. reflexivity.
Qed.

Lemma down_shaped act k N V R : shaped (S k) N V -> tlev_down act (level 1 k) (level 1 (S k)) V = Ret R -> shaped k (N * (1 + Z.of_nat k + 1)) R.
Proof.
  intros HV E. unfold tlev_down in E. change (tl_n (level 1 k)) with (1 + Z.of_nat k) in E. change (tl_parts (level 1 k)) with (map (lvpart 1 k) (qlist 1 (1 + Z.of_nat k))) in E.
  destruct (mv_getN V) as [N'| | |] eqn:EN; try discriminate. cbn [bind] in E.
  assert (N' = N) as ->.
  { unfold shaped in HV. destruct V as [|P V]; [discriminate EN|]. cbn [mv_getN] in EN. injection EN as <-. cbn [map] in HV. destruct (qlist 1 (1 + Z.of_nat (S k))) as [|l ls]; [discriminate HV|]. cbn [map] in HV. injection HV as _ _ E3 _. exact E3. }
  destruct (foldM _ (map (fun q => mp_broadcast q (1 + Z.of_nat k + 1)) V) []) as [VV| | |]; try discriminate. cbn [bind] in E.
  destruct (foldM _ (tl_parts (level 1 (S k))) _) as [(i, R')| | |] eqn:EF; try discriminate. cbn [bind snd] in E. injection E as <-.
  refine (foldM_pinv (fun st => shaped k (N * (1 + Z.of_nat k + 1)) (snd st)) _ _ _ _ _ _ EF).
  - cbn [snd]. unfold shaped. rewrite map_map, map_map. apply map_ext_in. intros l Hl. unfold key, mp_zero. cbn [mp_irr mp_t t_n0 t_n1]. rewrite lv_irr by auto. reflexivity.
  - intros p (j, Q) (j', Q') _ HQ B. cbn [snd] in *. destruct (rd VV j) as [q| | |]; try discriminate. cbn [bind] in B. destruct (foldM _ (tp_blocks p) Q) as [Q2| | |] eqn:EB; try discriminate. cbn [bind] in B. injection B as _ <-.
    refine (foldM_pinv (fun R => shaped k (N * (1 + Z.of_nat k + 1)) R) _ _ _ _ HQ _ EB).
    intros b R1 R2 _ H1 B. destruct (rd R1 (bk_sub b)) as [M| | |] eqn:EM; try discriminate. cbn [bind] in B. destruct (mp_add_block_to _ _ _ M _) as [M'| | |] eqn:EA; try discriminate. cbn [bind] in B.
    unfold shaped. rewrite (key_wr _ _ M M' _ EM); [exact H1| |exact B]. unfold mp_add_block_to in EA. destruct (assert_ _); try discriminate. cbn [bind] in EA. destruct (block_fits _ _ _ _ _); [|discriminate]. injection EA as <-. reflexivity.
Qed.

Lemma slices_over_down N T : 0 <= N -> t_n0 T = 16 -> t_n1 T = N * 6 ->
  zfor 0 6 (fun j q => act_slice irr_view_cycle N 6 j (mkCyc 6 (6 - j)) q) (mkMpart (mkirr 6 [3;2;1]) T) = UB.
Proof.
  intros HN E0 E1. rewrite zfor_cons by lia. unfold act_slice at 1. cbn [mp_irr mp_t]. unfold slice_get. rewrite E0, E1. replace ((0 <=? N) && (N * 6 <=? N * 6) && inrange 0 6) with true by (unfold inrange; lia). cbn [bind].
  unfold irr_view_cycle at 1. rewrite cyc_taus_act. change (cyc_taus 6 (6 - 0)) with (@nil Z). cbn [foldM bind]. rewrite zfor_cons by lia. unfold act_slice at 1. cbn [mp_irr mp_t]. unfold slice_get, slice_put. cbn [t_n0 t_n1 t_n2]. rewrite E0, E1.
  replace ((0 <=? N) && (N * 6 <=? N * 6) && inrange (0 + 1) 6) with true by (unfold inrange; lia). cbn [bind]. unfold irr_view_cycle at 1. rewrite cyc_taus_act. change (cyc_taus 6 (6 - (0 + 1))) with [5]. cbn [foldM]. rewrite view321 by reflexivity. reflexivity.
Qed.

Lemma level6_down N V R : 0 <= N -> shaped 5 N V -> tlev_down irr_view_cycle (level 1 4) (level 1 5) V <> Ret R.
Proof.
  intros HN HV E. unfold tlev_down in E. change (tl_n (level 1 4) + 1) with 6 in E. destruct (mv_getN V) as [N'| | |] eqn:EN; try discriminate. cbn [bind] in E.
  assert (N' = N) as ->.
  { unfold shaped in HV. destruct V as [|P V]; [discriminate EN|]. cbn [mv_getN] in EN. injection EN as <-. cbn [map] in HV. change (qlist 1 (1 + Z.of_nat 5)) with ([6] :: tl (qlist 1 6)) in HV. cbn [map] in HV. injection HV as _ _ E3 _. exact E3. }
  destruct (foldM _ (map (fun q => mp_broadcast q 6) V) []) as [VV| | |] eqn:EF; try discriminate. revert EF.
  assert (In (mkirr 6 [3;2;1], 16, N) (map key V)) as I.
  { unfold shaped in HV. rewrite HV. change (1 + Z.of_nat 5) with 6. apply in_map_iff. exists [3;2;1]. split; [reflexivity|]. change (qlist 1 6) with ([[6]; [5;1]; [4;2]; [4;1;1]; [3;3]] ++ [[3;2;1]] ++ [[3;1;1;1]; [2;2;2]; [2;2;1;1]; [2;1;1;1;1]; [1;1;1;1;1;1]]). apply in_app_iff. right. left. reflexivity. }
  apply in_map_iff in I as ((o, T) & EK & I). unfold key in EK. cbn [mp_irr mp_t] in EK. injection EK as -> E0 E1.
  apply (foldM_never _ _ (mp_broadcast (mkMpart (mkirr 6 [3;2;1]) T) 6)); [apply in_map_iff; eauto|]. intros s s'. unfold mp_broadcast. cbn [mp_irr mp_t]. rewrite slices_over_down; auto; [discriminate|]. cbn [t_n1]. unfold mp_N. cbn [mp_t]. rewrite E1. reflexivity.
Qed.

Lemma down_never F K : (forall k, (k <= K)%nat -> rd (ff_levels F) (Z.of_nat k) = Ret (level 1 k)) -> forall k, (5 <= k <= K)%nat -> forall N u r, 0 <= N -> shaped k N u ->
  foldM (fun l v => L <- rd (ff_levels F) (l - 1) ;; nxt <- rd (ff_levels F) l ;; tlev_down irr_view_cycle L nxt v) (rev (zrange 1 (Z.of_nat k + 1))) u <> Ret r.
Proof.
  intros HR. induction k as [|k IH]; intros Hk N u r HN HS E; [lia|]. rewrite (zrange_snoc 1 (Z.of_nat (S k))) in E by lia. rewrite rev_app_distr in E. cbn [rev app foldM] in E.
  rewrite HR in E by lia. replace (Z.of_nat (S k) - 1) with (Z.of_nat k) in E by lia. rewrite HR in E by lia. cbn [bind] in E.
  destruct (tlev_down irr_view_cycle (level 1 k) (level 1 (S k)) u) as [u'| | |] eqn:ED; try discriminate. cbn [bind] in E.
  destruct (Nat.eq_dec k 4) as [->|K4]; [exact (level6_down N u u' HN HS ED)|]. apply down_shaped with (N := N) in ED; auto. replace (Z.of_nat (S k)) with (Z.of_nat k + 1) in E by lia. refine (IH _ _ u' r _ ED E); [lia|nia].
Qed.

Theorem inverse_over n w F : 6 <= n -> fft_new n = Ret F -> (forall ls, integer_partitions n = Ret ls -> Forall2 square_part ls w) -> forall g, fft_inv irr_view_cycle F w <> Ret g.
Proof.
  intros Hn EF HW g E. rewrite fft_new_ok in EF by lia. injection EF as <-. change (mkFft n (-1) (map (level 1) (seq 0 (Z.to_nat n)))) with (fftn n) in E. unfold fft_inv in E.
  destruct (fft_down irr_view_cycle (fftn n) w) as [v| | |] eqn:ED; try discriminate. clear E g. unfold fft_down in ED.
  set (K := Z.to_nat (n - 1)). pose proof (fftn_levels n ltac:(lia)) as HF. fold K in HF.
  assert (HR : forall k, (k <= K)%nat -> rd (ff_levels (fftn n)) (Z.of_nat k) = Ret (level 1 k)) by (intros k Hk; apply (levels_rd 1 rows_cycle K); [intros j Hj; apply rows_act_ok; lia|exact HF|exact Hk]).
  assert (zlen (ff_levels (fftn n)) = n) as EL by (rewrite HF, zlen_map; unfold zlen; rewrite seq_length; lia). rewrite EL in ED.
  replace (n - 1) with (Z.of_nat K) in ED by lia. rewrite HR in ED by lia. cbn [bind] in ED. unfold level at 1 2 in ED. cbn [tl_parts] in ED.
  destruct (assert_ _); try discriminate. cbn [bind] in ED.
  destruct (zfor 0 (zlen w) _ tt) as [[]| | |] eqn:EZ; try discriminate. cbn [bind] in ED.
  destruct (zford (Z.of_nat K) 1 _ _) as [u| | |] eqn:EU; try discriminate. clear ED.
  unfold zford in EU. revert EU. replace (1 - 1 + 1) with 1 by lia. apply (down_never (fftn n) K HR K ltac:(lia) 1); [lia|].
  pose proof (HW _ (integer_partitions_ok n ltac:(lia))) as W. clear - W Hn.
  unfold shaped, mv_of_vec. rewrite map_map. replace (1 + Z.of_nat K) with n by (unfold K; lia). rewrite qlist_all by lia. fold K in W. fold K.
  assert (forall l, In l (plist K) -> is_part n l) as PP by (intros l Hl; apply in_parts_n in Hl; auto; lia).
  revert W PP. generalize (plist K) as ls. intros ls W. induction W as [|l P ls w (A & B & C) W IH]; intros PP; [reflexivity|]. cbn [map]. rewrite IH by (intros; apply PP; right; auto). f_equal.
  destruct (mkirr_ok n l (PP l (or_introl eq_refl)) ltac:(lia)) as (E & _). rewrite E in A. apply Ret_inj in A. unfold key. cbn [mp_irr mp_t t_n0 t_n1]. rewrite B, <- A. reflexivity.
Qed.

(* ---- statements for C40 and C65 ---- *)
Lemma view_leaves_tensor : exists o, is_part 6 [3;2;1] /\ irr_new [3;2;1] = Ret o /\ io_d o = 16 /\
  forall T, t_n0 T = 16 -> irr_view_transp o (mkTransp 5 6) T = UB.
Proof.
  assert (is_part 6 [3;2;1]) as P by (apply decb_part; reflexivity). exists (mkirr 6 [3;2;1]). split; [exact P|]. split; [apply (mkirr_ok 6); auto; lia|]. split; [vm_compute; reflexivity|].
  intros T E. unfold irr_view_transp, act_transp, zford. cbn [tr_i tr_j]. change (rev (zrange (Z.min 5 6) (Z.max 5 6 - 1 + 1))) with [5]. cbn [foldM]. rewrite view321 by auto. reflexivity.
Qed.

Lemma forward_from_6 n f : 6 <= n -> sf_n f = n -> length (sf_v f) = fact (Z.to_nat n) -> exists F, fft_new n = Ret F /\ fft_forward irr_view_cycle F f = UB.
Proof.
  intros Hn A B. exists (fftn n). split; [apply fft_new_ok; lia|]. apply forward_over; auto. apply fun_on_is; auto.
Qed.

Lemma inverse_from_6 n F ls w g : 6 <= n -> fft_new n = Ret F -> integer_partitions n = Ret ls -> Forall2 square_part ls w -> fft_inv irr_view_cycle F w <> Ret g.
Proof.
  intros Hn EF El W. apply (inverse_over n); auto. intros ls' El'. rewrite El in El'. apply Ret_inj in El'. subst. exact W.
Qed.

Lemma forward_right_iff n : 1 <= n ->
  ((forall f G, sf_n f = n -> length (sf_v f) = fact (Z.to_nat n) -> (forall p, is_perm n p -> sf_at f p = Ret (G p)) ->
     exists F ls w, fft_new n = Ret F /\ integer_partitions n = Ret ls /\ fft_forward irr_view_cycle F f = Ret w /\ Forall2 (fourier_part n G) ls w) <-> n <= 4).
Proof.
  intros Hn. split.
  - intros H. destruct (Z_le_dec n 4); auto. exfalso. destruct (Z.eq_dec n 5) as [->|N5].
    + destruct as_written_wrong as (F & w & ls & EF & A & B & El & Ew & K).
      assert (forall p, is_perm 5 p -> sf_at delta72 p = Ret (fv delta72 p)) as HG by (intros p Hp; apply (sf_at_ok 5); auto using delta72_fun; lia).
      destruct (H delta72 (fv delta72) A B HG) as (F' & ls' & w' & EF' & El' & Ew' & K'). rewrite EF in EF'. apply Ret_inj in EF'. subst F'. rewrite El in El'. apply Ret_inj in El'. subst ls'. rewrite Ew in Ew'. apply Ret_inj in Ew'. subst w'.
      exact (K _ HG K').
    + set (f := mkFun n (repeat 0%R (fact (Z.to_nat n)))). assert (is_fun n f) as If by (apply fun_on_is; [reflexivity|apply repeat_length]).
      destruct (H f (fv f) eq_refl (repeat_length _ _)) as (F & ls & w & EF & _ & Ew & _); [intros p Hp; apply (sf_at_ok n); auto; lia|].
      rewrite fft_new_ok in EF by lia. apply Ret_inj in EF. subst F. change (fft_forward irr_view_cycle (fftn n) f = Ret w) in Ew. rewrite forward_over in Ew by (auto; lia). discriminate.
  - intros L f G A B C. apply (forward_fourier irr_view_cycle n f G (good_view n ltac:(lia))); auto.
Qed.
