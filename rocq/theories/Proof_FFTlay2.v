(* The columns of the parts of a template: the tableaux in which 1..m stand in the first row. *)
From Coq Require Import ZArith List Bool Lia Reals Lra Sorting.Sorted Permutation.
From Verif Require Import Model_Base Model_Perm Model_Sn Model_Part Model_Comb Model_Tab Model_Irrep Model_Fun Model_FFT.
From Verif Require Import Spec_Perm Spec_Part Spec_Tab Spec_Rep Spec_Four Spec_FFT.
From Verif Require Import Proof_Base Proof_Perm Proof_Sn Proof_Part Proof_PartProps Proof_Tab Proof_TabProps Proof_Cycles Proof_Cox Proof_Yor Proof_Sum Proof_Irrep Proof_Rep Proof_Mat Proof_IrrepProps Proof_JM Proof_Conn Proof_Schur Proof_Restr Proof_UpDown Proof_Complete Proof_View Proof_ViewProps Proof_Fun Proof_FFTlay Proof_FFTblk Proof_FFTact Proof_FFTstep Proof_FFTmath.
Import ListNotations.
Open Scope Z_scope.

Lemma tb_boff n l r a : is_part n l -> 2 <= n -> In r (corners l) -> 0 <= a < io_d (mkirr (n - 1) (prem l r)) ->
  tb (mkirr n l) (boff n l r + a) = yadd (tb (mkirr (n - 1) (prem l r)) a) r n.
Proof.
  intros P Hn Hr Ha. destruct (mkirr_ok n l P ltac:(lia)) as (_ & G). destruct (cix n l r Hr) as (A & B). unfold boff.
  rewrite (tb_block n l _ Hn G) by (rewrite ?sub_row; auto). rewrite sub_row, B by auto. reflexivity.
Qed.

Lemma boff_find n l i : is_part n l -> 2 <= n -> 0 <= i < io_d (mkirr n l) -> exists r a, In r (corners l) /\ 0 <= a < io_d (mkirr (n - 1) (prem l r)) /\ i = boff n l r + a.
Proof.
  intros P Hn Hi. destruct (mkirr_ok n l P ltac:(lia)) as (_ & G). rewrite (d_blocks n l _ Hn G) in Hi. destruct (offset_find (ds n l) i) as (c & a & Hc & Ha & E); auto; [apply ds_nonneg|].
  rewrite len_ds in Hc. rewrite nth_ds in Ha by auto. set (r := nth c (corners l) 0). assert (In r (corners l)) as Hr by (apply nth_In; auto). exists r, a. split; auto.
  assert (Z.to_nat (idx r (corners l)) = c) as Ec.
  { pose proof (idx_znth (corners l) (Z.of_nat c) (NoDup_corners l) ltac:(unfold zlen; lia)) as Q. unfold znth in Q. rewrite Nat2Z.id in Q. fold r in Q. lia. }
  unfold boff. rewrite Ec. split; auto.
Qed.

Lemma prem_len n l r : is_part n l -> In r (corners l) -> 0 <= r <= zlen (prem l r).
Proof. intros P Hr. apply in_corners in Hr as (Hr & _). pose proof (zlen_prem l r (is_part_ppos _ _ P) Hr). lia. Qed.

Lemma std_len l t : standard l t -> zlen t = zlen l.
Proof. intros (H & _). rewrite <- H. unfold zlen. rewrite map_length. reflexivity. Qed.

(* 1..m in the first row *)
Lemma first_row_len l t m : standard l t -> 0 <= m -> first_row_has m t -> m <= row l 0.
Proof.
  intros (Sh & _) Hm H. assert (row l 0 = zlen (nth 0 t [])) as E.
  { rewrite <- Sh. unfold row. destruct t; reflexivity. }
  rewrite E. assert (incl (zrange 1 (m + 1)) (nth 0 t [])) as I.
  { intros v Hv. apply in_zrange in Hv. apply H. lia. }
  pose proof (NoDup_incl_length (NoDup_zrange 1 (m + 1)) I) as L. rewrite zrange_length in L. unfold zlen. lia.
Qed.

Lemma one_row_std m t : 1 <= m -> standard [m] t -> first_row_has m t.
Proof.
  intros Hm (Sh & Pm & _) v Hv. split; [lia|]. destruct t as [|x [|y t]]; try discriminate Sh. cbn [concat] in Pm. rewrite app_nil_r in Pm. cbn [nth].
  unfold zsum in Pm. cbn in Pm. rewrite Z.add_0_r in Pm. change (In v x). apply (is_perm_onto m); auto.
Qed.

Section Cols.
  Variable m : Z.
  Hypothesis Hm : 1 <= m.
  Local Notation lv k := (m + Z.of_nat k).
  Local Notation dd k l := (io_d (mkirr (lv k) l)).

  Lemma boff_mono n l r r' : is_part n l -> 2 <= n -> In r (corners l) -> In r' (corners l) -> idx r (corners l) < idx r' (corners l) -> boff n l r + io_d (mkirr (n - 1) (prem l r)) <= boff n l r'.
  Proof.
    intros P Hn Hr Hr' Hi. destruct (cix n l r Hr) as (A & B). destruct (cix n l r' Hr') as (A' & _). unfold boff.
    rewrite <- (sub_row n l r Hr), <- nth_ds by auto. rewrite <- offset_next by (rewrite len_ds; auto). apply offset_mono; [apply ds_nonneg|]. pose proof (idx_In r _ Hr). lia.
  Qed.

  Lemma jof_mono k l r r' : In r (subs m l) -> In r' (subs m l) -> idx r (subs m l) < idx r' (subs m l) -> jof m k l r + mlt m k (prem l r) <= jof m k l r'.
  Proof.
    intros Hr Hr' Hi. destruct (six m l r Hr) as (A & B). destruct (six m l r' Hr') as (A' & _). unfold jof. rewrite <- B at 2. rewrite <- nth_mls by auto.
    rewrite <- offset_next by (rewrite len_mls; auto). apply offset_mono; [apply mls_nonneg|]. pose proof (idx_In r _ Hr). lia.
  Qed.

  Lemma emb_lt k l y y' : In l (qlist m (lv k)) -> 0 <= y -> y < y' < mlt m k l -> emb m k l y < emb m k l y'.
  Proof.
    revert l y y'. induction k as [|k IH]; intros l y y' Hl H0 Hy; [rewrite mlt_0 in Hy; lia|].
    destruct (jof_find m k l y ltac:(lia)) as (r & c & Hr & Hc & ->). destruct (jof_find m k l y' ltac:(lia)) as (r' & c' & Hr' & Hc' & ->).
    pose proof (proj1 (in_qlist m (lv (S k)) l ltac:(lia)) Hl) as (P & _). assert (is_part (zsum l) l) as P' by (rewrite (is_part_sum _ _ P); auto).
    destruct (subs_qlist m Hm k l r Hl Hr) as (Q & R). destruct (subs_qlist m Hm k l r' Hl Hr') as (Q' & R').
    rewrite !emb_block by auto. destruct (Z.lt_trichotomy (idx r (subs m l)) (idx r' (subs m l))) as [C|[C|C]].
    - destruct (subs_prefix m l P') as (t & Et). pose proof (boff_mono (lv (S k)) l r r' P ltac:(lia) R R') as B. rewrite Et, !idx_app in B by auto. specialize (B C).
      pose proof (emb_range m Hm k _ c Q Hc). pose proof (emb_range m Hm k _ c' Q' Hc'). replace (lv (S k) - 1) with (lv k) in B by lia. lia.
    - assert (r = r') as <-.
      { destruct (idx_In r _ Hr) as (_ & A). destruct (idx_In r' _ Hr') as (_ & B). rewrite <- A, <- B, C. reflexivity. }
      assert (emb m k (prem l r) c < emb m k (prem l r) c'); [|lia]. apply IH; auto; lia.
    - pose proof (jof_mono k l r' r Hr' Hr C). lia.
  Qed.

  Lemma first_row_yadd u r v l n : standard (prem l r) u -> is_part n l -> In r (corners l) -> m < v -> (first_row_has m (yadd u r v) <-> first_row_has m u).
  Proof.
    intros Su P Hr Hv. pose proof (prem_len n l r P Hr) as L. rewrite <- (std_len _ _ Su) in L. unfold first_row_has. split; intros H x Hx; specialize (H x Hx); rewrite row_of_yadd in * by auto; [|tauto]. destruct H as [H|(-> & _)]; [auto|lia].
  Qed.

  Lemma embl_columns k l : In l (qlist m (lv k)) -> columns_from m (io_tabs (mkirr (lv k) l)) (embl m k l).
  Proof.
    intros Hl. split.
    { intros a b Hab. pose proof (emb_lt k l (Z.of_nat a) (Z.of_nat b) Hl) as H. rewrite <- zlen_embl in H. unfold emb, znth, zlen in H. rewrite !Nat2Z.id in H. apply H; lia. }
    assert (forall c, In c (embl m k l) <-> 0 <= c < dd k l /\ first_row_has m (tb (mkirr (lv k) l) c)) as K.
    { revert l Hl. induction k as [|k IH]; intros l Hl c; assert (is_part _ l /\ m <= row l 0) as (P & R0) by (eapply in_qlist; [|exact Hl]; lia).
      - cbn [embl]. replace (lv 0) with m in * by lia. destruct (mkirr_ok _ l P ltac:(lia)) as (_ & G). rewrite qlist_seed in Hl by auto. destruct Hl as [<-|[]]. rewrite d_row in * by auto. split.
        + intros [<-|[]]. split; [lia|]. apply one_row_std; auto. apply (tb_standard m [m] _ 0 G). rewrite d_row by auto. lia.
        + intros (H & _). left. lia.
      - destruct (mkirr_ok _ l P ltac:(lia)) as (_ & G). cbn [embl]. rewrite in_concat. split.
        + intros (x & Hx & Hc). apply in_map_iff in Hx as (r & <- & Hr). apply in_map_iff in Hc as (a & <- & Ha). destruct (subs_qlist m Hm k l r Hl Hr) as (Q & R).
          apply (IH _ Q) in Ha as (A & B). pose proof (proj1 (in_qlist m (lv k) _ ltac:(lia)) Q) as (P' & _). destruct (mkirr_ok _ _ P' ltac:(lia)) as (_ & G').
          assert (0 <= a < io_d (mkirr (lv (S k) - 1) (prem l r))) as A' by (replace (lv (S k) - 1) with (lv k) by lia; auto).
          split; [apply boff_bound; auto; lia|]. rewrite tb_boff by (auto; lia). replace (lv (S k) - 1) with (lv k) by lia. apply (first_row_yadd _ r _ l (lv (S k))); auto; [|lia]. apply (tb_standard _ _ _ _ G'); auto.
        + intros (H & F). destruct (boff_find _ l c P ltac:(lia) H) as (r & a & Hr & Ha & ->). rewrite tb_boff in F by (auto; lia). replace (lv (S k) - 1) with (lv k) in * by lia.
          assert (is_part (lv k) (prem l r)) as P' by (replace (lv k) with (lv (S k) - 1) by lia; eapply corner_part; eauto). destruct (mkirr_ok _ _ P' ltac:(lia)) as (_ & G').
          pose proof (tb_standard _ _ _ _ G' Ha) as St. apply (first_row_yadd _ r (lv (S k)) l (lv (S k)) St P Hr ltac:(lia)) in F. pose proof (first_row_len _ _ m St ltac:(lia) F) as R1.
          assert (In r (subs m l)) as Hs by (apply in_subs; auto). exists (map (Z.add (boff (lv (S k)) l r)) (embl m k (prem l r))). split; [apply (in_map (fun r => map (Z.add (boff (lv (S k)) l r)) (embl m k (prem l r)))); auto|].
          apply in_map. apply IH; auto. apply in_qlist; [lia|auto]. }
    intros c. rewrite K. split.
    - intros (H & F). exists (tb (mkirr (lv k) l) c). split; [lia|]. split; [|auto]. unfold tb, znth. apply nth_error_nth'. unfold io_d, zlen in H. lia.
    - intros (t & H & E & F). assert (Z.to_nat c < length (io_tabs (mkirr (lv k) l)))%nat as L by (apply nth_error_Some; rewrite E; discriminate). split; [unfold io_d, zlen; lia|].
      unfold tb, znth. rewrite (nth_error_nth _ _ _ E). auto.
  Qed.
End Cols.

Lemma F2_map2 {A B C} (R : B -> C -> Prop) (f : A -> B) (g : A -> C) l : (forall x, In x l -> R (f x) (g x)) -> Forall2 R (map f l) (map g l).
Proof. induction l as [|x l IH]; intros H; cbn [map]; constructor; [apply H; left; auto|]. apply IH. intros; apply H; right; auto. Qed.

Section Layout.
  Variable m : Z.
  Hypothesis Hm : 1 <= m.
  Local Notation lv k := (m + Z.of_nat k).

  Lemma yt_mkirr n l : is_part n l -> 1 <= n -> young_tableaux l = Ret (io_tabs (mkirr n l)).
  Proof. intros P Hn. apply young_tableaux_ok; auto. Qed.

  Lemma level_parts k i l p : nth_error (qlist m (lv k)) i = Some l -> nth_error (tl_parts (level m k)) i = Some p -> part_template m l i p.
  Proof.
    intros E Ep. cbn [level tl_parts] in Ep. rewrite (map_nth_error _ _ _ E) in Ep. injection Ep as <-. assert (In l (qlist m (lv k))) as Hl by (eapply nth_error_In; eauto).
    pose proof (proj1 (in_qlist m (lv k) l ltac:(lia)) Hl) as (P & _). exists (io_tabs (mkirr (lv k) l)), (embl m k l). split; [apply yt_mkirr; auto; lia|].
    rewrite lv_irr, lv_ix, lv_d by auto. split; [apply mkirr_ok; auto; lia|]. split; [|split; [reflexivity|split; [apply embl_columns; auto|]]].
    - assert (znth (qlist m (lv k)) (Z.of_nat i) [] = l) as <- by (unfold znth; rewrite Nat2Z.id; apply nth_error_nth; auto). apply pix_znth; [apply NoDup_qlist|]. assert (i < length (qlist m (lv k)))%nat by (apply nth_error_Some; rewrite E; discriminate). unfold zlen. lia.
    - change (mlt m k l = zlen (embl m k l)). rewrite zlen_embl. reflexivity.
  Qed.

  Lemma level_blocks k p : In p (tl_parts (level m (S k))) -> exists mus, ip_foreach_sub (io_lambda (tp_irr p)) = Ret mus /\
    Forall2 (block_template m (tl_parts (level m k)) (io_lambda (tp_irr p))) (filter (fun mu => m <=? row mu 0) mus) (tp_blocks p).
  Proof.
    intros Hp. cbn [level tl_parts] in Hp. apply in_map_iff in Hp as (l & <- & Hl). fold (lam (lvpart m (S k) l)). rewrite lv_lam. pose proof (proj1 (in_qlist m (lv (S k)) l ltac:(lia)) Hl) as (P & _).
    exists (map (prem l) (corners l)). split; [apply (ip_foreach_sub_ok (lv (S k))); auto; lia|]. rewrite lv_blocks by auto.
    assert (filter (fun mu => m <=? row mu 0) (map (prem l) (corners l)) = map (prem l) (subs m l)) as ->.
    { unfold subs. generalize (corners l) as rs. induction rs as [|r rs IH]; [reflexivity|]. cbn [map filter]. rewrite IH. destruct (m <=? row (prem l r) 0); reflexivity. }
    apply F2_map2. intros r Hr. destruct (subs_qlist m Hm k l r Hl Hr) as (Q & R). pose proof (proj1 (in_qlist m (lv k) _ ltac:(lia)) Q) as (P' & _).
    destruct (pix_In _ _ Q) as (A & B). unfold block_template. cbn [bk_i bk_j bk_sub].
    exists (lvpart m k (prem l r)), (io_tabs (mkirr (lv (S k)) l)), (io_tabs (mkirr (lv k) (prem l r))), (embl m (S k) l), (embl m k (prem l r)).
    split; [lia|]. split.
    { apply map_nth_error. rewrite <- B at 2. unfold znth. apply nth_error_nth'. unfold zlen in A. lia. }
    rewrite lv_irr. split; [apply mkirr_ok; auto; lia|]. split; [apply yt_mkirr; auto; lia|]. split; [apply yt_mkirr; auto; lia|]. split; [apply embl_columns; auto|]. split; [apply embl_columns; auto|].
    destruct (boff_fit (lv (S k)) l r P ltac:(lia) R) as (B0 & B1). destruct (jof_fit m k l r Hr) as (J0 & J1). split; auto. split; auto. replace (lv (S k) - 1) with (lv k) in B1 by lia. split.
    - intros a u E. assert (a < length (io_tabs (mkirr (lv k) (prem l r))))%nat as La by (apply nth_error_Some; rewrite E; discriminate).
      assert (0 <= Z.of_nat a < io_d (mkirr (lv k) (prem l r))) as La' by (unfold io_d, zlen; lia).
      pose proof (tb_boff (lv (S k)) l r (Z.of_nat a) P ltac:(lia) R) as T. replace (lv (S k) - 1) with (lv k) in T by lia. specialize (T La'). unfold tb, znth in T. rewrite Nat2Z.id in T. rewrite (nth_error_nth _ _ _ E) in T.
      exists (yadd u r (lv (S k))). split.
      + rewrite <- T. replace (Z.to_nat (boff (lv (S k)) l r + Z.of_nat a)) with (Z.to_nat (boff (lv (S k)) l r) + a)%nat by lia. apply nth_error_nth'. unfold io_d, zlen in B1, La'. lia.
      + destruct (mkirr_ok _ _ P' ltac:(lia)) as (_ & G'). assert (standard (prem l r) u) as Su by (apply (good_tabs _ _ _ G'); eapply nth_error_In; eauto).
        intros i c (Hi & Hc). pose proof (prem_len _ l r P R) as L. rewrite <- (std_len _ _ Su) in L. rewrite entry_yadd by lia. destruct (Z.eqb_spec i r) as [->|]; [|reflexivity]. destruct (Z.eqb_spec c (row (shp u) r)) as [->|]; [|reflexivity].
        exfalso. destruct Su as (Sh & _). unfold has_shape in Sh. unfold shp in Hc. change (fun row : list Z => Z.of_nat (length row)) with (@zlen Z) in Sh. rewrite Sh in Hc. lia.
    - intros a x E. assert (a < length (embl m k (prem l r)))%nat as La by (apply nth_error_Some; rewrite E; discriminate).
      pose proof (zlen_embl m k (prem l r)) as Ze. unfold zlen in Ze. assert (0 <= Z.of_nat a < mlt m k (prem l r)) as La' by lia.
      pose proof (emb_block m k l r (Z.of_nat a) Hr La') as T. unfold emb, znth in T. rewrite Nat2Z.id in T. rewrite (nth_error_nth _ _ _ E) in T. rewrite <- T.
      replace (Z.to_nat (jof m k l r + Z.of_nat a)) with (Z.to_nat (jof m k l r) + a)%nat by lia. apply nth_error_nth'. pose proof (zlen_embl m (S k) l) as Zs. unfold zlen in Zs. lia.
  Qed.
End Layout.

Lemma nth_levels m K k : (k <= K)%nat -> nth_error (map (level m) (seq 0 (S K))) k = Some (level m k).
Proof. intros H. apply map_nth_error. rewrite (nth_error_nth' _ 0%nat) by (rewrite seq_length; lia). rewrite seq_nth by lia. reflexivity. Qed.

Lemma quotient_layout n m : 1 <= m <= n -> exists F, fft_new2 n m = Ret F /\ Z.of_nat (length (ff_levels F)) = n - m + 1 /\
  forall k, m <= k <= n -> exists L ls, nth_error (ff_levels F) (Z.to_nat (k - m)) = Some L /\ tl_n L = k /\ integer_partitions k = Ret ls /\
    length (tl_parts L) = length (filter (fun l => m <=? row l 0) ls) /\
    forall i l p, nth_error (filter (fun l => m <=? row l 0) ls) i = Some l -> nth_error (tl_parts L) i = Some p -> part_template m l i p.
Proof.
  intros H. eexists. split; [apply fft_new2_ok; auto|]. cbn [ff_levels]. split; [rewrite map_length, seq_length; lia|]. intros k Hk.
  exists (level m (Z.to_nat (k - m))), (plist (Z.to_nat (k - 1))). split; [apply nth_levels; lia|]. split; [cbn; lia|]. split; [apply integer_partitions_ok; lia|].
  assert (filter (fun l => m <=? row l 0) (plist (Z.to_nat (k - 1))) = qlist m (m + Z.of_nat (Z.to_nat (k - m)))) as -> by (unfold qlist; do 2 f_equal; lia).
  split; [cbn; rewrite map_length; reflexivity|]. intros i l p. apply level_parts. lia.
Qed.

Lemma quotient_blocks n m F k L L' p : 1 <= m <= n -> fft_new2 n m = Ret F -> m < k <= n -> nth_error (ff_levels F) (Z.to_nat (k - m)) = Some L -> nth_error (ff_levels F) (Z.to_nat (k - 1 - m)) = Some L' -> In p (tl_parts L) ->
  exists mus, ip_foreach_sub (io_lambda (tp_irr p)) = Ret mus /\ Forall2 (block_template m (tl_parts L') (io_lambda (tp_irr p))) (filter (fun mu => m <=? row mu 0) mus) (tp_blocks p).
Proof.
  intros H E Hk E1 E2 Hp. rewrite fft_new2_ok in E by auto. apply Ret_inj in E. subst F. cbn [ff_levels] in *. rewrite nth_levels in E1, E2 by lia. injection E1 as <-. injection E2 as <-.
  replace (Z.to_nat (k - m)) with (S (Z.to_nat (k - 1 - m))) in * by lia. apply level_blocks; auto. lia.
Qed.

(* for the whole group *)
Lemma sn_layout n : 1 <= n -> exists F, fft_new n = Ret F /\ Z.of_nat (length (ff_levels F)) = n /\
  forall k, 1 <= k <= n -> exists L ls, nth_error (ff_levels F) (Z.to_nat (k - 1)) = Some L /\ tl_n L = k /\ integer_partitions k = Ret ls /\ length (tl_parts L) = length ls /\
    forall i l p, nth_error ls i = Some l -> nth_error (tl_parts L) i = Some p -> part_template 1 l i p /\ tp_m p = tp_d p.
Proof.
  intros H. eexists. split; [apply fft_new_ok; auto|]. cbn [ff_levels]. split; [rewrite map_length, seq_length; lia|]. intros k Hk.
  exists (level 1 (Z.to_nat (k - 1))), (plist (Z.to_nat (k - 1))). replace (Z.to_nat n) with (S (Z.to_nat (n - 1))) by lia. split; [apply nth_levels; lia|]. split; [cbn [level tl_n]; lia|]. split; [apply integer_partitions_ok; lia|].
  assert (plist (Z.to_nat (k - 1)) = qlist 1 (1 + Z.of_nat (Z.to_nat (k - 1)))) as -> by (rewrite qlist_all by lia; do 2 f_equal; lia).
  split; [cbn; rewrite map_length; reflexivity|]. intros i l p E Ep. split; [eapply level_parts; eauto; lia|]. cbn [level tl_parts] in Ep. rewrite (map_nth_error _ _ _ E) in Ep. injection Ep as <-.
  assert (In l (qlist 1 (1 + Z.of_nat (Z.to_nat (k - 1))))) as Hl by (eapply nth_error_In; eauto). rewrite lv_d by (auto; lia). apply mlt_d. apply in_qlist in Hl; [tauto|lia].
Qed.

Lemma sn_blocks n F k L L' p : 1 <= n -> fft_new n = Ret F -> 1 < k <= n -> nth_error (ff_levels F) (Z.to_nat (k - 1)) = Some L -> nth_error (ff_levels F) (Z.to_nat (k - 2)) = Some L' -> In p (tl_parts L) ->
  exists mus, ip_foreach_sub (io_lambda (tp_irr p)) = Ret mus /\ Forall2 (block_template 1 (tl_parts L') (io_lambda (tp_irr p))) mus (tp_blocks p) /\ Forall (fun b => bk_i b = bk_j b) (tp_blocks p).
Proof.
  intros H E Hk E1 E2 Hp. rewrite fft_new_ok in E by auto. apply Ret_inj in E. subst F. cbn [ff_levels] in *. replace (Z.to_nat n) with (S (Z.to_nat (n - 1))) in * by lia. rewrite nth_levels in E1, E2 by lia. injection E1 as <-. injection E2 as <-.
  replace (Z.to_nat (k - 1)) with (S (Z.to_nat (k - 2))) in * by lia. destruct (level_blocks 1 ltac:(lia) (Z.to_nat (k - 2)) p Hp) as (mus & A & B). exists mus. split; auto.
  cbn [level tl_parts] in Hp. apply in_map_iff in Hp as (l & <- & Hl). fold (lam (lvpart 1 (S (Z.to_nat (k - 2))) l)) in *. rewrite lv_lam in *. pose proof (proj1 (in_qlist 1 (1 + Z.of_nat (S (Z.to_nat (k - 2)))) l ltac:(lia)) Hl) as (P & _).
  rewrite (ip_foreach_sub_ok (1 + Z.of_nat (S (Z.to_nat (k - 2))))) in A by (auto; lia). apply Ret_inj in A. subst mus. rewrite filter_all in B.
  2:{ intros x Hx. apply in_map_iff in Hx as (r & <- & Hr). assert (is_part (1 + Z.of_nat (Z.to_nat (k - 2))) (prem l r)) as Q by (replace (1 + Z.of_nat (Z.to_nat (k - 2))) with (1 + Z.of_nat (S (Z.to_nat (k - 2))) - 1) by lia; eapply corner_part; eauto). pose proof (part_row0 _ _ Q ltac:(lia)). lia. }
  split; auto. rewrite lv_blocks by (auto; lia). apply Forall_forall. intros b Hb. apply in_map_iff in Hb as (r & <- & Hr). cbn [bk_i bk_j]. symmetry. apply jof_boff; auto. apply in_subs in Hr. tauto.
Qed.
