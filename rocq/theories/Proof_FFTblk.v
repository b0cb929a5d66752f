(* The blocks of the levels of the transform: offsets, sizes, multiplicities (C44). *)
From Coq Require Import ZArith List Bool Lia ZifyBool ZifyNat Reals Sorted Permutation.
From Verif Require Import Model_Base Model_Perm Model_Sn Model_Part Model_Comb Model_Tab Model_Irrep Model_Fun Model_FFT.
From Verif Require Import Spec_Perm Spec_Part Spec_Tab Spec_Rep Spec_Four.
From Verif Require Import Proof_Base Proof_Perm Proof_Sn Proof_Part Proof_PartProps Proof_Tab Proof_TabProps Proof_Cycles Proof_Cox Proof_Yor Proof_Sum
  Proof_Irrep Proof_Rep Proof_Mat Proof_IrrepProps Proof_JM Proof_Conn Proof_Schur Proof_Restr Proof_UpDown Proof_Complete Proof_FFTlay.
Import ListNotations.
Open Scope Z_scope.

Local Notation pdec := (list_eq_dec Z.eq_dec).

Lemma fold_add ss p : let q := fold_left tpart_add ss p in
  tp_ix q = tp_ix p /\ tp_d q = tp_d p /\ tp_m q = tp_m p + zsum (map tp_m ss) /\ tp_io q = tp_io p + zsum (map tp_d ss) /\
  tp_blocks q = tp_blocks p ++ map (fun c => mkBlk (tp_io p + offset (map tp_d ss) c) (tp_m p + offset (map tp_m ss) c) (nth c (map tp_ix ss) 0)) (seq 0 (length ss)).
Proof.
  revert p. induction ss as [|s ss IH]; intros p; cbv zeta.
  - cbn. rewrite app_nil_r. repeat split; lia.
  - cbn [fold_left]. destruct (IH (tpart_add p s)) as (A & B & C & D & E). unfold tpart_add in *. cbn [tp_ix tp_d tp_m tp_io tp_blocks] in *.
    rewrite A, B, C, D, E. cbn [map length seq]. rewrite !zsum_cons. repeat split; try lia.
    rewrite <- app_assoc. cbn [app]. f_equal. rewrite !offset_0, !Z.add_0_r. f_equal. rewrite <- seq_shift, map_map. apply map_ext. intros c. rewrite !offset_S. cbn [nth]. f_equal; lia.
Qed.

(* the multiplicity of a part, and where the columns of a parent begin *)
Definition mlt (m : Z) (k : nat) (l : list Z) : Z := tp_m (lvpart m k l).
Definition mls (m : Z) (k : nat) (l : list Z) : list Z := map (fun r => mlt m k (prem l r)) (subs m l).
Definition jof (m : Z) (k : nat) (l : list Z) (r : Z) : Z := offset (mls m k l) (Z.to_nat (idx r (subs m l))).

Lemma d_row m : 1 <= m -> io_d (mkirr m [m]) = 1.
Proof.
  intros Hm. replace m with (Z.of_nat (Z.to_nat (m - 1)) + 1) by lia. generalize (Z.to_nat (m - 1)) as k. clear. induction k as [|k IH]; [reflexivity|].
  set (n := Z.of_nat k + 1) in *. replace (Z.of_nat (S k) + 1) with (n + 1) by lia. assert (1 <= n) as Hn by lia.
  destruct (mkirr_ok (n + 1) [n + 1] (is_part_row (n + 1) ltac:(lia)) ltac:(lia)) as (_ & G). rewrite (d_blocks (n + 1) _ _ ltac:(lia) G). unfold ds.
  assert (corners [n + 1] = [0]) as ->.
  { change (corners [n + 1]) with (if 0 <? n + 1 then [0] else []). replace (0 <? n + 1) with true by lia. reflexivity. }
  cbn [map]. replace (n + 1 - 1) with n by lia. assert (prem [n + 1] 0 = [n]) as ->.
  { apply (one_row n); [|rewrite row_prem; [cbn; lia|apply (is_part_ppos (n + 1)); apply is_part_row; lia|unfold zlen; cbn; lia|lia]|lia].
    replace n with (n + 1 - 1) at 1 by lia. apply is_part_prem; [apply is_part_row; lia|unfold zlen; cbn; lia|change (0 < n + 1); lia]. }
  rewrite IH. reflexivity.
Qed.

Lemma zsum_nonneg l : (forall x, In x l -> 0 <= x) -> 0 <= zsum l.
Proof. induction l as [|x l IH]; intros H; [cbn; lia|]. rewrite zsum_cons. pose proof (H x (or_introl eq_refl)). specialize (IH ltac:(intros; apply H; right; auto)). lia. Qed.

Lemma offset_fit ds c : (forall x, In x ds -> 0 <= x) -> (c < length ds)%nat -> 0 <= offset ds c /\ offset ds c + nth c ds 0 <= zsum ds.
Proof.
  intros H Hc. split; [apply offset_nonneg; auto|]. rewrite <- offset_next by auto. unfold offset. rewrite <- (firstn_skipn (S c) ds) at 2. change (fold_right Z.add 0) with zsum. rewrite zsum_app.
  pose proof (zsum_nonneg (skipn (S c) ds)) as K. assert (forall x, In x (skipn (S c) ds) -> 0 <= x) as Q; [|specialize (K Q); lia].
  intros x Hx. apply H. rewrite <- (firstn_skipn (S c) ds). apply in_app_iff. auto.
Qed.

Lemma idx_app r a b : In r a -> idx r (a ++ b) = idx r a.
Proof.
  induction a as [|x a IH]; intros H; [destruct H|]. cbn [idx app]. destruct (Z.eqb_spec x r); auto. destruct H as [->|H]; [contradiction|]. rewrite IH; auto.
Qed.

Section Level.
  Variable m : Z.
  Hypothesis Hm : 1 <= m.
  Local Notation lv k := (m + Z.of_nat k).

  Lemma lv_d k l : In l (qlist m (lv k)) -> tp_d (lvpart m k l) = io_d (mkirr (lv k) l).
  Proof.
    intros H. destruct k as [|k]; cbn [lvpart].
    - replace (lv 0) with m in * by lia. rewrite qlist_seed in H by auto. destruct H as [<-|[]]. rewrite d_row by auto. reflexivity.
    - apply (fold_add _ (tpart0 (lv (S k)) l (pix l (qlist m (lv (S k)))))).
  Qed.

  Lemma lv_ix k l : In l (qlist m (lv k)) -> tp_ix (lvpart m k l) = pix l (qlist m (lv k)).
  Proof.
    intros H. destruct k as [|k]; cbn [lvpart].
    - replace (lv 0) with m in * by lia. rewrite qlist_seed in * by auto. destruct H as [<-|[]]. cbn. match goal with |- context [if ?c then _ else _] => destruct c as [e|e]; [reflexivity|exfalso; apply e; reflexivity] end.
    - apply (fold_add _ (tpart0 (lv (S k)) l (pix l (qlist m (lv (S k)))))).
  Qed.

  Lemma mlt_S k l : mlt m (S k) l = zsum (mls m k l).
  Proof.
    unfold mlt, mls. cbn [lvpart]. destruct (fold_add (map (lvpart m k) (map (prem l) (subs m l))) (tpart0 (lv (S k)) l (pix l (qlist m (lv (S k)))))) as (_ & _ & E & _). rewrite E.
    cbn [tpart0 tp_m]. rewrite !map_map. reflexivity.
  Qed.

  Lemma mlt_0 l : mlt m 0 l = 1.
  Proof. reflexivity. Qed.

  Lemma mlt_nonneg k l : 0 <= mlt m k l.
  Proof.
    revert l. induction k as [|k IH]; intros l; [rewrite mlt_0; lia|]. rewrite mlt_S. apply zsum_nonneg. intros x H. apply in_map_iff in H as (r & <- & _). apply IH.
  Qed.

  Lemma mls_nonneg k l x : In x (mls m k l) -> 0 <= x.
  Proof. intros H. apply in_map_iff in H as (r & <- & _). apply mlt_nonneg. Qed.

  Lemma subs_qlist k l r : In l (qlist m (lv (S k))) -> In r (subs m l) -> In (prem l r) (qlist m (lv k)) /\ In r (corners l).
  Proof.
    intros H Hr. replace (lv (S k)) with (lv k + 1) in H by lia. apply in_qlist in H as (P & H); [|lia]. destruct (subs_part m (lv k) l r P Hr). split; [apply in_qlist; auto; lia|]. apply in_subs in Hr. tauto.
  Qed.

  Lemma NoDup_subs l : NoDup (subs m l).
  Proof. apply NoDup_filter. apply NoDup_corners. Qed.

  Lemma six l r : In r (subs m l) -> (Z.to_nat (idx r (subs m l)) < length (subs m l))%nat /\ nth (Z.to_nat (idx r (subs m l))) (subs m l) 0 = r.
  Proof. intros H. destruct (idx_In r _ H) as (A & B). unfold zlen in A. split; [lia|exact B]. Qed.

  Lemma nth_mls k l c : (c < length (subs m l))%nat -> nth c (mls m k l) 0 = mlt m k (prem l (nth c (subs m l) 0)).
  Proof. intros H. unfold mls. rewrite (nth_indep _ 0 (mlt m k (prem l 0))) by (rewrite map_length; auto). rewrite (map_nth (fun r => mlt m k (prem l r))). reflexivity. Qed.

  Lemma len_mls k l : length (mls m k l) = length (subs m l).
  Proof. unfold mls. apply map_length. Qed.

  Lemma jof_fit k l r : In r (subs m l) -> 0 <= jof m k l r /\ jof m k l r + mlt m k (prem l r) <= mlt m (S k) l.
  Proof.
    intros H. destruct (six l r H) as (A & B). rewrite mlt_S. unfold jof. rewrite <- B at 3. rewrite <- nth_mls by auto. apply offset_fit; [apply mls_nonneg|rewrite len_mls; auto].
  Qed.

  Lemma jof_inj k l r r' c c' : In r (subs m l) -> In r' (subs m l) -> 0 <= c < mlt m k (prem l r) -> 0 <= c' < mlt m k (prem l r') -> jof m k l r + c = jof m k l r' + c' -> r = r' /\ c = c'.
  Proof.
    intros H H' Hc Hc' E. destruct (six l r H) as (A & B). destruct (six l r' H') as (A' & B'). unfold jof in E.
    apply (offset_inj (mls m k l)) in E as (E & ->); [|apply mls_nonneg|rewrite len_mls; auto|rewrite len_mls; auto|rewrite nth_mls, B by auto; auto|rewrite nth_mls, B' by auto; auto].
    split; [rewrite <- B, <- B', E; reflexivity|auto].
  Qed.

  Lemma jof_find k l y : 0 <= y < mlt m (S k) l -> exists r c, In r (subs m l) /\ 0 <= c < mlt m k (prem l r) /\ y = jof m k l r + c.
  Proof.
    rewrite mlt_S. intros H. destruct (offset_find (mls m k l) y (mls_nonneg k l) H) as (c & a & Hc & Ha & E). rewrite len_mls in Hc. exists (nth c (subs m l) 0), a.
    rewrite <- nth_mls by auto. split; [apply nth_In; auto|]. split; auto. unfold jof.
    pose proof (idx_znth (subs m l) (Z.of_nat c) (NoDup_subs l) ltac:(unfold zlen; lia)) as Q. unfold znth in Q. rewrite Nat2Z.id in Q. rewrite Q, Nat2Z.id. auto.
  Qed.

  (* dropping the top row from the corners does not move the other blocks *)
  Lemma subs_prefix l : is_part (zsum l) l -> exists t, corners l = subs m l ++ t.
  Proof.
    intros P. pose proof (corners_sorted l) as S. assert (forall r, In r (corners l) -> 0 <= r < zlen l) as I by (intros r H; apply in_corners in H; lia).
    unfold subs. revert S I. generalize (corners l) as rs. induction rs as [|r rs IH]; intros S I; [exists []; reflexivity|].
    inversion S as [|a b S1 F]; subst. rewrite Forall_forall in F. destruct IH as (t & E); auto; [intros; apply I; right; auto|]. cbn [filter].
    destruct (m <=? row (prem l r) 0) eqn:Q.
    - exists t. cbn [app]. rewrite <- E. reflexivity.
    - destruct (filter (fun r => m <=? row (prem l r) 0) rs) as [|q qs] eqn:Z; [exists (r :: rs); reflexivity|]. exfalso.
      assert (In q (filter (fun r => m <=? row (prem l r) 0) rs)) as Iq by (rewrite Z; left; auto). apply filter_In in Iq as (Iq & Hq). specialize (F q Iq).
      pose proof (I r (or_introl eq_refl)). pose proof (I q (or_intror Iq)). rewrite row_prem in Q, Hq by (eauto using is_part_ppos; lia). destruct (Z.eqb_spec 0 r), (Z.eqb_spec 0 q); lia.
  Qed.

  Lemma boff_subs n l r : is_part n l -> In r (subs m l) -> boff n l r = offset (map (fun q => io_d (mkirr (n - 1) (prem l q))) (subs m l)) (Z.to_nat (idx r (subs m l))).
  Proof.
    intros P H. unfold boff, ds. assert (is_part (zsum l) l) as P' by (rewrite (is_part_sum _ _ P); auto). destruct (subs_prefix l P') as (t & ->). rewrite idx_app by auto.
    rewrite map_app. unfold offset. rewrite firstn_app. destruct (six l r H) as (A & _). rewrite map_length. replace (Z.to_nat (idx r (subs m l)) - length (subs m l))%nat with 0%nat by lia.
    cbn [firstn]. rewrite app_nil_r. reflexivity.
  Qed.

  Lemma lv_blocks k l : In l (qlist m (lv (S k))) ->
    tp_blocks (lvpart m (S k) l) = map (fun r => mkBlk (boff (lv (S k)) l r) (jof m k l r) (pix (prem l r) (qlist m (lv k)))) (subs m l).
  Proof.
    intros H. cbn [lvpart]. destruct (fold_add (map (lvpart m k) (map (prem l) (subs m l))) (tpart0 (lv (S k)) l (pix l (qlist m (lv (S k)))))) as (_ & _ & _ & _ & E). rewrite E. clear E.
    cbn [tpart0 tp_blocks tp_io tp_m app]. rewrite !map_map, !map_length.
    assert (forall r, In r (subs m l) -> In (prem l r) (qlist m (lv k))) as I by (intros r Hr; eapply subs_qlist; eauto).
    rewrite (map_ext_in (fun x => tp_d (lvpart m k (prem l x))) (fun q => io_d (mkirr (lv (S k) - 1) (prem l q)))).
    2:{ intros r Hr. rewrite lv_d by auto. do 2 f_equal. lia. }
    rewrite (map_ext_in (fun x => tp_ix (lvpart m k (prem l x))) (fun q => pix (prem l q) (qlist m (lv k)))) by (intros r Hr; apply lv_ix; auto).
    apply (list_ext _ _ (mkBlk 0 0 0)).
    { rewrite !zlen_map. unfold zlen. rewrite seq_length. reflexivity. }
    rewrite zlen_map. unfold zlen at 1. rewrite seq_length. intros i Hi. rewrite (znth_map _ _ _ 0%nat) by (unfold zlen; rewrite seq_length; lia). rewrite (znth_map _ _ _ 0) by (unfold zlen; lia).
    unfold znth. rewrite seq_nth by lia. cbn [Nat.add]. set (r := nth (Z.to_nat i) (subs m l) 0). assert (In r (subs m l)) as Hr by (apply nth_In; lia).
    assert (Z.to_nat (idx r (subs m l)) = Z.to_nat i) as Ei.
    { pose proof (idx_znth (subs m l) i (NoDup_subs l) ltac:(unfold zlen; lia)) as Q. unfold znth in Q. fold r in Q. rewrite Q. auto. }
    assert (is_part (lv (S k)) l) as P by (apply in_qlist in H as (H & _); [exact H|lia]). rewrite (boff_subs (lv (S k))) by auto. rewrite Ei. rewrite !Z.add_0_l. f_equal.
    - unfold jof, mls, mlt. rewrite Ei. reflexivity.
    - rewrite (nth_indep _ 0 (pix (prem l 0) (qlist m (lv k)))) by (rewrite map_length; lia). rewrite (map_nth (fun q => pix (prem l q) (qlist m (lv k)))). reflexivity.
  Qed.
End Level.

Lemma boff_fit n l r : is_part n l -> 2 <= n -> In r (corners l) -> 0 <= boff n l r /\ boff n l r + io_d (mkirr (n - 1) (prem l r)) <= io_d (mkirr n l).
Proof.
  intros P Hn Hr. destruct (mkirr_ok n l P ltac:(lia)) as (_ & G). rewrite (d_blocks n l _ Hn G). destruct (cix n l r Hr) as (A & B). unfold boff.
  rewrite <- B at 3. change (mkirr (n - 1) (prem l (nth (Z.to_nat (idx r (corners l))) (corners l) 0))) with (subirr n l (Z.to_nat (idx r (corners l)))). rewrite <- nth_ds by auto.
  apply offset_fit; [apply ds_nonneg|rewrite len_ds; auto].
Qed.


(* from a single box every corner can be removed and the multiplicity is the dimension *)
Lemma subs_all n l : is_part (n + 1) l -> 1 <= n -> subs 1 l = corners l.
Proof.
  intros P Hn. unfold subs. apply filter_all. intros r Hr. assert (is_part n (prem l r)) as Q by (replace n with (n + 1 - 1) by lia; eapply corner_part; eauto). pose proof (part_row0 n _ Q Hn). lia.
Qed.

Lemma mlt_d k l : is_part (1 + Z.of_nat k) l -> mlt 1 k l = io_d (mkirr (1 + Z.of_nat k) l).
Proof.
  revert l. induction k as [|k IH]; intros l P.
  - rewrite mlt_0. apply is_part_1 in P. subst. reflexivity.
  - replace (1 + Z.of_nat (S k)) with (1 + Z.of_nat k + 1) in * by lia. rewrite mlt_S. unfold mls. rewrite (subs_all (1 + Z.of_nat k)) by (auto; lia).
    destruct (mkirr_ok _ l P ltac:(lia)) as (_ & G). rewrite (d_blocks (1 + Z.of_nat k + 1) l _ ltac:(lia) G). unfold ds. f_equal. apply map_ext_in. intros r Hr.
    replace (1 + Z.of_nat k + 1 - 1) with (1 + Z.of_nat k) by lia. apply IH. replace (1 + Z.of_nat k) with (1 + Z.of_nat k + 1 - 1) by lia. eapply corner_part; eauto.
Qed.

Lemma jof_boff k l r : is_part (1 + Z.of_nat (S k)) l -> In r (corners l) -> jof 1 k l r = boff (1 + Z.of_nat (S k)) l r.
Proof.
  intros P Hr. replace (1 + Z.of_nat (S k)) with (1 + Z.of_nat k + 1) in * by lia. unfold jof, boff, mls, ds. rewrite (subs_all (1 + Z.of_nat k)) by (auto; lia). f_equal.
  apply map_ext_in. intros q Hq. replace (1 + Z.of_nat k + 1 - 1) with (1 + Z.of_nat k) by lia. apply mlt_d. replace (1 + Z.of_nat k) with (1 + Z.of_nat k + 1 - 1) by lia. eapply corner_part; eauto.
Qed.
