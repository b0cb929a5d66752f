(* The group bank: invariant and histories. *)
From Coq Require Import ZArith List Bool Lia Sorted Permutation.
From Verif Require Import Model_Base Model_Sn Model_Part Model_Comb Model_Tab Model_SnBank Spec_Perm Spec_Part Spec_Tab Spec_SnBank
  Proof_Base Proof_Perm Proof_Part Proof_PartProps Proof_Tab Proof_TabProps.
Import ListNotations.
Open Scope Z_scope.

Definition dob : snobj := snobj_new 0.
Definition dirr : irrobj := mkIrr [] [].
Definition ob (s : sstate) (i : Z) : snobj := znth (ss_objs s) i dob.
Definition iro (l : list irrobj) (q : Z) : irrobj := znth l q dirr.
Definition quo (l : list (Z * Z)) (q : Z) : Z * Z := znth l q (0, 0).
Definition nob (s : sstate) : Z := zlen (ss_objs s).
Definition pl (i : Z) : list (list Z) := plist (Z.to_nat i).

Definition pre {A} (l l' : list A) : Prop := exists x, l' = l ++ x.

Lemma pre_refl {A} (l : list A) : pre l l.
Proof. exists []. rewrite app_nil_r. reflexivity. Qed.
Lemma pre_app {A} (l x : list A) : pre l (l ++ x).
Proof. exists x. reflexivity. Qed.
Lemma pre_trans {A} (a b c : list A) : pre a b -> pre b c -> pre a c.
Proof. intros (x & ->) (y & ->). exists (x ++ y). rewrite app_assoc. reflexivity. Qed.
Lemma pre_len {A} (a b : list A) : pre a b -> zlen a <= zlen b.
Proof. intros (x & ->). rewrite zlen_app. pose proof (zlen_nonneg x). lia. Qed.
Lemma pre_nth {A} (a b : list A) i d : pre a b -> 0 <= i < zlen a -> znth b i d = znth a i d.
Proof. intros (x & ->) H. rewrite znth_app by lia. destruct (Z.ltb_spec i (zlen a)); [reflexivity|lia]. Qed.
Lemma pre_in {A} (a b : list A) x : pre a b -> In x a -> In x b.
Proof. intros (y & ->). rewrite in_app_iff. auto. Qed.

Definition objOK (irr : list irrobj) (qu : list (Z * Z)) (i : Z) (o : snobj) : Prop :=
  sn_n o = i + 1 /\ sn_order o = zfact (i + 1) /\ sn_prev o = (if i =? 0 then None else Some (i - 1)) /\
  (sn_imap o = map (fun q => (ir_lambda (iro irr q), q)) (sn_irreps o) /\
   NoDup (map (fun q => ir_lambda (iro irr q)) (sn_irreps o)) /\
   forall q, In q (sn_irreps o) -> 0 <= q < zlen irr /\ is_part (i + 1) (ir_lambda (iro irr q)) /\
     young_tableaux (ir_lambda (iro irr q)) = Ret (ir_tabs (iro irr q))) /\
  ((sn_ccl o = [] /\ sn_cmap o = []) \/
   (sn_ccl o = pl i /\ exists junk, sn_cmap o = combine (pl i) (zrange 0 (zlen (pl i))) ++ junk /\ Forall (fun kv => zsum (fst kv) = i + 1 /\ snd kv = 0) junk)) /\
  (NoDup (map fst (sn_over o)) /\ forall m q, In (m, q) (sn_over o) -> 0 <= q < zlen qu /\ quo qu q = (i + 1, m)).

Definition W (s : sstate) : Prop :=
  ss_vec s = map Some (zrange 0 (nob s)) /\ forall i, 0 <= i < nob s -> objOK (ss_irr s) (ss_quo s) i (ob s i).

Definition grow (o o' : snobj) : Prop :=
  pre (sn_irreps o) (sn_irreps o') /\ (sn_ccl o <> [] -> sn_ccl o' = sn_ccl o) /\ pre (sn_over o) (sn_over o').

Definition M (s s' : sstate) : Prop :=
  nob s <= nob s' /\ pre (ss_irr s) (ss_irr s') /\ pre (ss_quo s) (ss_quo s') /\ forall i, 0 <= i < nob s -> grow (ob s i) (ob s' i).

Lemma grow_refl o : grow o o.
Proof. split; [apply pre_refl|]. split; [auto|apply pre_refl]. Qed.

Lemma grow_trans a b c : grow a b -> grow b c -> grow a c.
Proof.
  intros (A1 & A2 & A3) (B1 & B2 & B3). split; [eapply pre_trans; eauto|]. split; [|eapply pre_trans; eauto].
  intros H. rewrite B2, A2; auto. rewrite A2; auto.
Qed.

Lemma M_refl s : M s s.
Proof. split; [lia|]. split; [apply pre_refl|]. split; [apply pre_refl|]. intros. apply grow_refl. Qed.

Lemma M_trans a b c : M a b -> M b c -> M a c.
Proof.
  intros (A1 & A2 & A3 & A4) (B1 & B2 & B3 & B4). split; [lia|]. split; [eapply pre_trans; eauto|]. split; [eapply pre_trans; eauto|].
  intros i Hi. eapply grow_trans; [apply A4; auto|apply B4; lia].
Qed.

Lemma iro_pre l l' q : pre l l' -> 0 <= q < zlen l -> iro l' q = iro l q.
Proof. intros. apply pre_nth; auto. Qed.

Lemma objOK_mono irr irr' qu qu' i o : pre irr irr' -> pre qu qu' -> objOK irr qu i o -> objOK irr' qu' i o.
Proof.
  intros P1 P2 (H1 & H2 & H3 & (H4 & H5 & H6) & H7 & H8 & H9). split; [auto|]. split; [auto|]. split; [auto|].
  assert (forall q, In q (sn_irreps o) -> iro irr' q = iro irr q) as E by (intros q Hq; apply iro_pre; auto; apply H6; auto).
  split; [split; [|split]|split; [auto|split; auto]].
  - rewrite H4. apply map_ext_in. intros q Hq. rewrite E; auto.
  - replace (map (fun q => ir_lambda (iro irr' q)) (sn_irreps o)) with (map (fun q => ir_lambda (iro irr q)) (sn_irreps o)); auto.
    apply map_ext_in. intros q Hq. rewrite E; auto.
  - intros q Hq. rewrite E by auto. pose proof (pre_len _ _ P1). destruct (H6 q Hq) as (A & B & C). split; [lia|auto].
  - intros m q Hq. pose proof (pre_len _ _ P2). destruct (H9 m q Hq) as (A & B). split; [lia|]. unfold quo. rewrite (pre_nth qu); auto.
Qed.

Definition upd (s : sstate) (p : Z) (o : snobj) (irr : list irrobj) (qu : list (Z * Z)) : sstate :=
  mkSS (zupd (ss_objs s) p o) irr qu (ss_vec s).

Lemma upd_ob s p o irr qu i : 0 <= p < nob s -> 0 <= i -> ob (upd s p o irr qu) i = if i =? p then o else ob s i.
Proof.
  intros Hp Hi. unfold ob, upd. cbn [ss_objs]. apply znth_zupd; auto.
Qed.

Lemma upd_nob s p o irr qu : 0 <= p < nob s -> nob (upd s p o irr qu) = nob s.
Proof. intros H. unfold nob, upd. cbn [ss_objs]. apply zlen_zupd. exact H. Qed.

Lemma upd_W s p o irr qu : W s -> 0 <= p < nob s -> pre (ss_irr s) irr -> pre (ss_quo s) qu -> objOK irr qu p o -> W (upd s p o irr qu).
Proof.
  intros (V & H) Hp P1 P2 Ho. split.
  - rewrite upd_nob by auto. exact V.
  - rewrite upd_nob by auto. intros i Hi. rewrite upd_ob by (auto; lia). destruct (Z.eqb_spec i p) as [->|Ne]; [exact Ho|]. eapply objOK_mono; [exact P1|exact P2|]. apply H. auto.
Qed.

Lemma upd_M s p o irr qu : 0 <= p < nob s -> pre (ss_irr s) irr -> pre (ss_quo s) qu -> grow (ob s p) o -> M s (upd s p o irr qu).
Proof.
  intros Hp P1 P2 G. split; [rewrite upd_nob by auto; lia|]. split; [auto|]. split; [auto|]. intros i Hi. rewrite upd_ob by (auto; lia).
  destruct (Z.eqb_spec i p) as [->|Ne]; [exact G|apply grow_refl].
Qed.

(* ---- get_Sn ---- *)

Lemma zupd_app_r {A} (l : list A) y r x : zupd (l ++ y :: r) (zlen l) x = l ++ x :: r.
Proof.
  apply (list_ext _ _ x).
  - rewrite zlen_zupd; rewrite !zlen_app, !zlen_cons; [reflexivity|]. pose proof (zlen_nonneg l). pose proof (zlen_nonneg r). lia.
  - intros i Hi. pose proof (zlen_nonneg l). pose proof (zlen_nonneg r).
    rewrite zlen_zupd in Hi by (rewrite zlen_app, zlen_cons; lia). rewrite zlen_app, zlen_cons in Hi.
    rewrite znth_zupd by (rewrite ?zlen_app, ?zlen_cons; lia). rewrite !znth_app by lia. destruct (Z.eqb_spec i (zlen l)) as [->|Ne].
    + destruct (Z.ltb_spec (zlen l) (zlen l)); [lia|]. rewrite znth_cons by lia. destruct (Z.eqb_spec (zlen l - zlen l) 0); [reflexivity|lia].
    + destruct (Z.ltb_spec i (zlen l)); [reflexivity|]. rewrite !znth_cons by lia. destruct (Z.eqb_spec (i - zlen l) 0); [lia|reflexivity].
Qed.

Definition fill_inv (s0 : sstate) (n j : Z) (s : sstate) : Prop :=
  nob s = j - 1 /\ ss_vec s = map Some (zrange 0 (j - 1)) ++ repeat None (Z.to_nat (n - (j - 1))) /\
  ss_irr s = ss_irr s0 /\ ss_quo s = ss_quo s0 /\ (forall i, 0 <= i < nob s0 -> ob s i = ob s0 i) /\
  (forall i, nob s0 <= i < nob s -> sn_irreps (ob s i) = []) /\
  (forall i, 0 <= i < nob s -> objOK (ss_irr s0) (ss_quo s0) i (ob s i)).

Lemma objOK_new irr qu i : objOK irr qu i (mkSnObj (i + 1) (zfact (i + 1)) (if i =? 0 then None else Some (i - 1)) [] [] [] [] []).
Proof.
  split; [reflexivity|]. split; [reflexivity|]. split; [reflexivity|]. split; [split; [reflexivity|split; [constructor|intros q []]]|]. split; [left; auto|].
  split; [constructor|intros m q []].
Qed.

Lemma fill_step s0 n j s : nob s0 + 1 <= j < n + 1 -> fill_inv s0 n j s -> exists s', get_Sn_fill j s = Ret s' /\ fill_inv s0 n (j + 1) s'.
Proof.
  intros Hj (H1 & H2 & H3 & H4 & H5 & H5b & H6). pose proof (zlen_nonneg (ss_objs s0)) as Hn0. fold (nob s0) in Hn0.
  unfold get_Sn_fill. fold (nob s).
  assert (zlen (map (@Some Z) (zrange 0 (j - 1))) = j - 1) as L by (rewrite zlen_map, zlen_zrange; lia).
  assert (exists r, repeat (@None Z) (Z.to_nat (n - (j - 1))) = None :: repeat None r /\ r = Z.to_nat (n - j)) as (r & Hr & Hr2).
  { exists (Z.to_nat (n - j)). split; [|reflexivity]. replace (Z.to_nat (n - (j - 1))) with (S (Z.to_nat (n - j))) by lia. reflexivity. }
  rewrite H2, Hr. rewrite wr_ok by (rewrite zlen_app, L, zlen_cons, zlen_repeat; lia). cbn [bind].
  replace (zupd (map Some (zrange 0 (j - 1)) ++ None :: repeat None r) (j - 1) (Some (nob s))) with (map Some (zrange 0 j) ++ repeat None r).
  2:{ rewrite <- L at 2. rewrite zupd_app_r. rewrite H1. replace j with ((j - 1) + 1) at 1 by lia. rewrite zrange_snoc by lia. rewrite map_app. cbn [map]. rewrite <- app_assoc. reflexivity. }
  assert (zlen (map (@Some Z) (zrange 0 j)) = j) as L2 by (rewrite zlen_map, zlen_zrange; lia).
  assert ((if j >? 1 then q <- rd (map Some (zrange 0 j) ++ repeat None r) (j - 2) ;; Ret q else Ret None) = Ret (if j - 1 =? 0 then None else Some (j - 1 - 1))) as E.
  { destruct (Z.gtb_spec j 1); destruct (Z.eqb_spec (j - 1) 0); try lia; [|reflexivity].
    rewrite (rd_ok _ _ None) by (rewrite zlen_app, L2, zlen_repeat; lia). cbn [bind]. rewrite znth_app by lia. rewrite L2. destruct (Z.ltb_spec (j - 2) j); [|lia].
    rewrite (znth_map Some _ _ 0) by (rewrite zlen_zrange; lia). rewrite znth_zrange by lia. do 2 f_equal. lia. }
  rewrite E. cbn [bind]. eexists. split; [reflexivity|]. cbn [sn_n sn_order snobj_new].
  set (o := mkSnObj j (zfact j) (if j - 1 =? 0 then None else Some (j - 1 - 1)) [] [] [] [] []).
  assert (forall i, 0 <= i < nob s -> ob (mkSS (ss_objs s ++ [o]) (ss_irr s) (ss_quo s) (map Some (zrange 0 j) ++ repeat None r)) i = ob s i) as Old.
  { intros i Hi. unfold ob. cbn [ss_objs]. apply (pre_nth (ss_objs s)); [apply pre_app|exact Hi]. }
  assert (ob (mkSS (ss_objs s ++ [o]) (ss_irr s) (ss_quo s) (map Some (zrange 0 j) ++ repeat None r)) (nob s) = o) as New.
  { unfold ob, nob. cbn [ss_objs]. pose proof (zlen_nonneg (ss_objs s)). rewrite znth_app by lia. destruct (Z.ltb_spec (zlen (ss_objs s)) (zlen (ss_objs s))); [lia|].
    rewrite Z.sub_diag. reflexivity. }
  assert (nob (mkSS (ss_objs s ++ [o]) (ss_irr s) (ss_quo s) (map Some (zrange 0 j) ++ repeat None r)) = j) as Nj.
  { unfold nob. cbn [ss_objs]. rewrite zlen_app. change (zlen [o]) with 1. fold (nob s). lia. }
  split; [rewrite Nj; lia|]. split; [cbn [ss_vec]; replace (j + 1 - 1) with j by lia; rewrite Hr2; reflexivity|]. split; [exact H3|]. split; [exact H4|].
  split; [intros i Hi; rewrite Old by lia; apply H5; auto|]. rewrite Nj. split; intros i Hi; (destruct (Z.eq_dec i (nob s)) as [->|Ne]; [rewrite New|rewrite Old by lia]).
  - reflexivity.
  - apply H5b. lia.
  - unfold o. rewrite H1. replace j with ((j - 1) + 1) at 2 3 by lia. apply objOK_new.
  - apply H6. lia.
Qed.

Lemma get_Sn_ok n s : W s -> 1 <= n ->
  exists s', get_Sn n s = Ret (n - 1, s') /\ W s' /\ M s s' /\ n <= nob s' /\ (n <= nob s -> s' = s) /\
    ss_irr s' = ss_irr s /\ ss_quo s' = ss_quo s /\ (forall i, 0 <= i < nob s -> ob s' i = ob s i) /\ (forall i, nob s <= i < nob s' -> sn_irreps (ob s' i) = []).
Proof.
  intros (V & H) Hn. pose proof (zlen_nonneg (ss_objs s)) as Hn0. fold (nob s) in Hn0.
  unfold get_Sn. destruct (Z.ltb_spec n 0); [lia|]. destruct (Z.eqb_spec n 0); [lia|].
  assert (zlen (ss_vec s) = nob s) as L by (rewrite V, zlen_map, zlen_zrange; lia). rewrite L.
  destruct (Z.ltb_spec (n - 1) (nob s)).
  - rewrite (rd_ok _ _ None) by lia. rewrite V. rewrite (znth_map Some _ _ 0) by (rewrite zlen_zrange; lia). rewrite znth_zrange by lia. cbn [bind deref].
    rewrite Z.add_0_l. exists s. split; [reflexivity|]. split; [split; auto|]. split; [apply M_refl|]. split; [lia|]. split; [auto|]. split; [auto|]. split; [auto|]. split; [auto|].
    intros; lia.
  - set (s1 := mkSS _ _ _ _).
    destruct (zfor_inv (fill_inv s n) (nob s + 1) (n + 1) get_Sn_fill s1) as (s2 & E2 & I1 & I2 & I3 & I4 & I5 & I5b & I6).
    + lia.
    + unfold s1. split; [unfold nob; cbn [ss_objs]; lia|]. split; [cbn [ss_vec]; rewrite V; do 2 f_equal; [f_equal; lia|lia]|]. cbn. auto.
      split; [auto|]. split; [auto|]. split; [auto|]. split; [intros i Hi; unfold nob in *; cbn [ss_objs] in *; lia|]. intros i Hi. apply H. auto.
    + intros j s' Hj. apply fill_step. lia.
    + rewrite E2. cbn [bind]. replace (n + 1 - 1) with n in * by lia. rewrite Z.sub_diag in I2. change (Z.to_nat 0) with 0%nat in I2. cbn [repeat] in I2. rewrite app_nil_r in I2.
      rewrite (rd_ok _ _ None) by (rewrite I2, zlen_map, zlen_zrange; lia). rewrite I2, (znth_map Some _ _ 0) by (rewrite zlen_zrange; lia). rewrite znth_zrange by lia. cbn [bind deref].
      rewrite Z.add_0_l. exists s2. split; [reflexivity|]. split; [split; [rewrite I1; exact I2|intros i Hi; rewrite I3, I4; auto]|].
      split; [|split; [lia|split; [lia|auto]]]. split; [lia|]. split; [rewrite I3; apply pre_refl|]. split; [rewrite I4; apply pre_refl|]. intros i Hi. rewrite I5 by auto. apply grow_refl.
Qed.

(* ---- maps keyed by partitions ---- *)

Lemma pm_scan_total n m lambda : Forall (fun kv => zsum (fst kv) = n) m -> zsum lambda = n -> exists r, pm_scan m lambda = Ret r /\ (forall v, r = Some v -> In v (map snd m)).
Proof.
  intros F Hs. induction F as [|(mu, v) m H F IH]; cbn [pm_scan]; [exists None; split; [reflexivity|discriminate]|]. cbn [fst] in H.
  unfold ip_lt. rewrite !ip_getn_zsum, H, Hs, Z.eqb_refl. cbn [assert_ bind]. destruct (negb _ && negb _).
  - exists (Some v). split; [reflexivity|]. intros w E. inversion E; subst. left. reflexivity.
  - destruct IH as (r & -> & Hr). exists r. split; [reflexivity|]. intros w E. right. auto.
Qed.

Lemma pm_scan_part n m lambda : Forall (fun kv => is_part n (fst kv)) m -> is_part n lambda ->
  (exists v, pm_scan m lambda = Ret (Some v) /\ In (lambda, v) m) \/ (pm_scan m lambda = Ret None /\ ~ In lambda (map fst m)).
Proof.
  intros F Hl. induction F as [|(mu, v) m H F IH]; cbn [pm_scan map]; [right; auto|]. cbn [fst] in *.
  destruct (lt_strict_total_order n) as (_ & _ & T). destruct (T mu lambda H Hl) as [(A & B & C)|[(A & B & C)|(A & B & C & D)]]; rewrite A, B; cbn [bind negb andb].
  - destruct IH as [(w & E & I)|(E & I)]; [left; exists w; split; [auto|right; auto]|right; split; [auto|]].
    intros [->|Q]; [|auto]. rewrite (proj1 (lt_strict_total_order n) lambda Hl) in A. discriminate.
  - destruct IH as [(w & E & I)|(E & I)]; [left; exists w; split; [auto|right; auto]|right; split; [auto|]].
    intros [->|Q]; [|auto]. rewrite (proj1 (lt_strict_total_order n) lambda Hl) in B. discriminate.
  - subst. left. exists v. split; [reflexivity|left; reflexivity].
Qed.

Lemma pm_scan_app m1 m2 lambda v : pm_scan m1 lambda = Ret (Some v) -> pm_scan (m1 ++ m2) lambda = Ret (Some v).
Proof.
  induction m1 as [|(mu, w) m1 IH]; cbn [pm_scan app]; [discriminate|]. destruct (ip_lt mu lambda); try discriminate. cbn [bind]. destruct (ip_lt lambda mu); try discriminate. cbn [bind].
  destruct (negb a && negb a0); auto.
Qed.

Lemma pl_spec i : 0 <= i -> forall p, In p (pl i) <-> is_part (i + 1) p.
Proof. intros H p. unfold pl. rewrite plist_spec. rewrite Z2Nat.id by lia. tauto. Qed.

Lemma pl_NoDup i : NoDup (pl i).
Proof. eapply sorted_NoDup; [|apply plist_sorted]. apply lex_irrefl. Qed.

Lemma ints_pl n : 1 <= n -> integer_partitions n = Ret (pl (n - 1)).
Proof. intros H. apply integer_partitions_ok. auto. Qed.

Lemma pl_nonempty i : pl i <> [].
Proof. unfold pl. destruct (plist (Z.to_nat i)) eqn:E; [|discriminate]. assert (In (repeat 1 (S (Z.to_nat i))) (plist (Z.to_nat i))) as Q.
  { apply plist_spec. split; [|split].
    - intros x Hx. apply repeat_spec in Hx. lia.
    - generalize (S (Z.to_nat i)). induction n; cbn [repeat]; constructor; auto. apply Forall_forall. intros x Hx. apply repeat_spec in Hx. lia.
    - generalize (Z.to_nat i). induction n; [reflexivity|]. change (repeat 1 (S (S n))) with (1 :: repeat 1 (S n)). cbn [zsum fold_right]. unfold zsum in IHn. rewrite IHn. lia. }
  rewrite E in Q. destruct Q.
Qed.

(* ---- irreps ---- *)

Definition has_irrep (s : sstate) (i : Z) (lambda : list Z) (q : Z) : Prop :=
  0 <= i < nob s /\ In q (sn_irreps (ob s i)) /\ ir_lambda (iro (ss_irr s) q) = lambda.

Lemma has_irrep_mono s s' i lambda q : W s -> M s s' -> has_irrep s i lambda q -> has_irrep s' i lambda q.
Proof.
  intros (_ & H) (M1 & M2 & M3 & M4) (A & B & C). split; [lia|]. destruct (M4 i A) as (G & _). split; [eapply pre_in; eauto|].
  destruct (H i A) as (_ & _ & _ & (_ & _ & K) & _). rewrite (iro_pre _ _ _ M2) by (apply K; auto). exact C.
Qed.

Lemma has_irrep_fun s i lambda q q' : W s -> has_irrep s i lambda q -> has_irrep s i lambda q' -> q = q'.
Proof.
  intros (_ & H) (A & B & C) (_ & B' & C'). destruct (H i A) as (_ & _ & _ & (_ & N & _) & _).
  rewrite <- C' in C. clear C' A. revert N B B' C. generalize (sn_irreps (ob s i)). induction l as [|x l IH]; intros N B B' C; [destruct B|]. cbn [map] in N. inv N.
  destruct B as [->|B], B' as [->|B']; auto.
  - exfalso. apply H2. rewrite C. apply (in_map (fun q => ir_lambda (iro (ss_irr s) q))). auto.
  - exfalso. apply H2. rewrite <- C. apply (in_map (fun q => ir_lambda (iro (ss_irr s) q))). auto.
Qed.

Lemma map_eq_fst {A B} (f : A -> B) l x v : In (x, v) (map (fun q => (f q, q)) l) -> f v = x /\ In v l.
Proof. intros H. apply in_map_iff in H. destruct H as (q & E & I). inversion E; subst. auto. Qed.

Lemma obj_get_irrep_ok i lambda s : W s -> 0 <= i < nob s -> is_part (i + 1) lambda ->
  exists q s', obj_get_irrep i lambda s = Ret (q, s') /\ W s' /\ M s s' /\ has_irrep s' i lambda q /\ nob s' = nob s /\
    (forall j, 0 <= j -> j <> i -> ob s' j = ob s j) /\
    ((s' = s /\ In q (sn_irreps (ob s i))) \/ (sn_irreps (ob s' i) = sn_irreps (ob s i) ++ [q] /\ ~ exists q', has_irrep s i lambda q')).
Proof.
  intros Hw Hi Hl. pose proof Hw as (V & H). destruct (H i Hi) as (H1 & H2 & H3 & (H4 & H5 & H6) & H7 & H8).
  unfold obj_get_irrep. rewrite (rd_ok _ i dob) by exact Hi. cbn [bind]. fold (ob s i).
  assert (Forall (fun kv => is_part (i + 1) (fst kv)) (sn_imap (ob s i))) as F.
  { rewrite H4. apply Forall_forall. intros kv Hkv. apply in_map_iff in Hkv. destruct Hkv as (q & <- & Hq). cbn [fst]. apply H6. auto. }
  destruct (pm_scan_part (i + 1) (sn_imap (ob s i)) lambda F Hl) as [(q & E & I)|(E & I)]; rewrite E; cbn [bind].
  - rewrite H4 in I. apply map_eq_fst in I. destruct I as (I1 & I2). exists q, s. split; [reflexivity|]. split; [auto|]. split; [apply M_refl|]. split; [split; auto|].
    split; [auto|]. split; [auto|]. left. auto.
  - destruct (tableaux_complete (i + 1) lambda Hl ltac:(lia)) as (ts & Et & _). rewrite Et. cbn [bind]. unfold put_obj. cbn [ss_objs ss_irr ss_quo ss_vec].
    rewrite wr_ok by exact Hi. cbn [bind].
    match goal with |- context [zupd (ss_objs s) i ?o] => set (o' := o) end.
    set (irr' := ss_irr s ++ [mkIrr lambda ts]). assert (pre (ss_irr s) irr') as P by apply pre_app.
    assert (iro irr' (zlen (ss_irr s)) = mkIrr lambda ts) as New.
    { unfold iro, irr'. pose proof (zlen_nonneg (ss_irr s)). rewrite znth_app by lia. destruct (Z.ltb_spec (zlen (ss_irr s)) (zlen (ss_irr s))); [lia|]. rewrite Z.sub_diag. reflexivity. }
    exists (zlen (ss_irr s)), (upd s i o' irr' (ss_quo s)). split; [reflexivity|].
    assert (forall q, In q (sn_irreps (ob s i)) -> iro irr' q = iro (ss_irr s) q) as Old by (intros q Hq; apply iro_pre; auto; apply H6; auto).
    assert (objOK irr' (ss_quo s) i o') as Ok.
    { unfold o'. split; [exact H1|]. split; [exact H2|]. split; [exact H3|]. cbn [sn_imap sn_irreps sn_ccl sn_cmap sn_over].
      split; [split; [|split]|split; [exact H7|exact H8]].
      - rewrite map_app. cbn [map]. rewrite New. cbn [ir_lambda]. rewrite H4. f_equal. apply map_ext_in. intros q Hq. rewrite Old; auto.
      - rewrite map_app. cbn [map]. rewrite New. cbn [ir_lambda]. replace (map (fun q => ir_lambda (iro irr' q)) (sn_irreps (ob s i))) with (map fst (sn_imap (ob s i))).
        + apply (Permutation_NoDup (Permutation_cons_append _ _)). constructor; [exact I|]. rewrite H4, map_map. exact H5.
        + rewrite H4, map_map. apply map_ext_in. intros q Hq. cbn [fst]. rewrite Old; auto.
      - intros q Hq. apply in_app_or in Hq. destruct Hq as [Hq|[<-|[]]].
        + rewrite Old by auto. destruct (H6 q Hq) as (A & B & C). split; [pose proof (pre_len _ _ P); lia|auto].
        + rewrite New. cbn [ir_lambda ir_tabs]. split; [|auto]. unfold irr'. rewrite zlen_app. change (zlen [mkIrr lambda ts]) with 1. pose proof (zlen_nonneg (ss_irr s)). lia. }
    split; [apply upd_W; auto; apply pre_refl|]. split.
    { apply upd_M; auto; [apply pre_refl|]. unfold o'. split; [cbn; apply pre_app|]. split; [auto|cbn; apply pre_refl]. }
    assert (ob (upd s i o' irr' (ss_quo s)) i = o') as Eo by (rewrite upd_ob by (auto; lia); rewrite Z.eqb_refl; reflexivity).
    split.
    { split; [rewrite upd_nob by auto; auto|]. rewrite Eo. split; [unfold o'; cbn; apply in_or_app; right; left; auto|]. unfold upd. cbn [ss_irr]. rewrite New. reflexivity. }
    split; [apply upd_nob; auto|]. split; [intros j Hj Nj; rewrite upd_ob by (auto; lia); destruct (Z.eqb_spec j i); [lia|auto]|].
    right. rewrite Eo. split; [reflexivity|]. intros (q' & _ & B & C). apply I. rewrite H4, map_map. cbn [fst]. rewrite <- C. apply (in_map (fun q => ir_lambda (iro (ss_irr s) q))). auto.
Qed.

(* requests one after another *)
Lemma make_list_ok i ps : forall s, W s -> 0 <= i < nob s -> (forall p, In p ps -> is_part (i + 1) p) ->
  exists s', foldM (fun lambda s => r <- obj_get_irrep i lambda s ;; Ret (snd r)) ps s = Ret s' /\ W s' /\ M s s' /\ nob s' = nob s /\
    (forall p, In p ps -> exists q, has_irrep s' i p q) /\ (forall j, 0 <= j -> j <> i -> ob s' j = ob s j) /\
    (NoDup ps -> (forall p, In p ps -> ~ exists q, has_irrep s i p q) ->
       exists qs, sn_irreps (ob s' i) = sn_irreps (ob s i) ++ qs /\ map (fun q => ir_lambda (iro (ss_irr s') q)) qs = ps) /\
    ((forall p, In p ps -> exists q, has_irrep s i p q) -> s' = s).
Proof.
  induction ps as [|p ps IH]; intros s Hw Hi Hp; cbn [foldM].
  - exists s. split; [reflexivity|]. split; [auto|]. split; [apply M_refl|]. split; [auto|]. split; [intros p []|]. split; [auto|]. split; [|auto].
    intros _ _. exists []. rewrite app_nil_r. auto.
  - destruct (obj_get_irrep_ok i p s Hw Hi (Hp p (or_introl eq_refl))) as (q & s1 & E & W1 & M1 & I1 & N1 & O1 & C1). rewrite E. cbn [bind snd].
    destruct (IH s1 W1 ltac:(lia) ltac:(intros; apply Hp; right; auto)) as (s2 & E2 & W2 & M2 & N2 & A2 & O2 & F2 & S2). exists s2. split; [exact E2|]. split; [auto|]. split; [eapply M_trans; eauto|].
    split; [lia|]. split; [|split; [|split]].
    + intros p' [<-|Hp']; [|auto]. exists q. exact (has_irrep_mono _ _ _ _ _ W1 M2 I1).
    + intros j Hj Nj. rewrite O2, O1; auto.
    + intros ND Fr. inv ND. destruct C1 as [(-> & Q)|(C1 & _)].
      * exfalso. apply (Fr p (or_introl eq_refl)). exists q. auto.
      * destruct F2 as (qs & Q1 & Q2); auto.
        { intros p' Hp' (q' & X1 & X2 & X3). rewrite C1 in X2. apply in_app_or in X2. destruct X2 as [X2|[<-|[]]].
          - apply (Fr p' (or_intror Hp')). exists q'. split; [lia|]. split; [auto|]. destruct M1 as (_ & P & _). rewrite (iro_pre _ _ _ P) in X3; [auto|].
            destruct Hw as (_ & Hw). destruct (Hw i Hi) as (_ & _ & _ & (_ & _ & K) & _). apply K. auto.
          - destruct I1 as (_ & _ & I1). rewrite I1 in X3. subst. auto. }
        exists (q :: qs). rewrite Q1, C1, <- app_assoc. split; [reflexivity|]. cbn [map]. rewrite Q2. f_equal.
        destruct (has_irrep_mono _ _ _ _ _ W1 M2 I1) as (_ & _ & I). exact I.
    + intros Hall. destruct C1 as [(-> & _)|(_ & C1)]; [|exfalso; apply C1; apply Hall; left; auto]. apply S2. intros p' Hp'. apply Hall. right. auto.
Qed.

Definition complete (s : sstate) (i : Z) : Prop := 0 <= i < nob s /\ forall p, is_part (i + 1) p -> exists q, has_irrep s i p q.

Lemma complete_mono s s' i : W s -> M s s' -> complete s i -> complete s' i.
Proof. intros Hw Hm (A & B). split; [destruct Hm; lia|]. intros p Hp. destruct (B p Hp) as (q & Q). exists q. exact (has_irrep_mono _ _ _ _ _ Hw Hm Q). Qed.

(* in a complete state the stored irreps are the partitions, and no more *)
Lemma complete_irreps s i : W s -> complete s i ->
  let ls := map (fun q => ir_lambda (iro (ss_irr s) q)) (sn_irreps (ob s i)) in NoDup ls /\ (forall p, In p ls <-> is_part (i + 1) p).
Proof.
  intros (_ & H) (A & B). cbv zeta. destruct (H i A) as (_ & _ & _ & (_ & N & K) & _). split; [auto|]. intros p. rewrite in_map_iff. split.
  - intros (q & <- & Hq). apply K. auto.
  - intros Hp. destruct (B p Hp) as (q & _ & Q1 & Q2). exists q. auto.
Qed.

Lemma complete_pre s s' i : W s -> W s' -> M s s' -> complete s i -> sn_irreps (ob s' i) = sn_irreps (ob s i).
Proof.
  intros Hw Hw' Hm Hc. pose proof (complete_mono _ _ _ Hw Hm Hc) as Hc'. destruct (complete_irreps s i Hw Hc) as (N1 & I1). destruct (complete_irreps s' i Hw' Hc') as (N2 & I2).
  destruct Hc as (A & _). destruct Hm as (_ & _ & _ & G). destruct (G i A) as ((x & Hx) & _). rewrite Hx. destruct x as [|y x]; [apply app_nil_r|exfalso].
  assert (length (sn_irreps (ob s' i)) = length (sn_irreps (ob s i))) as L.
  { rewrite <- (map_length (fun q => ir_lambda (iro (ss_irr s') q))), <- (map_length (fun q => ir_lambda (iro (ss_irr s) q)) (sn_irreps (ob s i))).
    apply Permutation_length. apply NoDup_Permutation; auto. intros p. rewrite I1, I2. tauto. }
  rewrite Hx, app_length in L. cbn in L. lia.
Qed.

Lemma make_all_ok i s : W s -> 0 <= i < nob s ->
  exists s', obj_make_all_irreps i s = Ret s' /\ W s' /\ M s s' /\ nob s' = nob s /\ complete s' i /\ (forall j, 0 <= j -> j <> i -> ob s' j = ob s j) /\
    (sn_irreps (ob s i) = [] -> map (fun q => ir_lambda (iro (ss_irr s') q)) (sn_irreps (ob s' i)) = pl i).
Proof.
  intros Hw Hi. pose proof Hw as (_ & H). destruct (H i Hi) as (H1 & _). unfold obj_make_all_irreps. rewrite (rd_ok _ i dob) by exact Hi. cbn [bind]. fold (ob s i).
  rewrite H1, ints_pl by lia. cbn [bind]. replace (i + 1 - 1) with i by lia.
  destruct (make_list_ok i (pl i) s Hw Hi) as (s' & E & W' & M' & N' & A' & O' & F' & _).
  { intros p Hp. apply pl_spec; auto. lia. }
  exists s'. split; [exact E|]. split; [auto|]. split; [auto|]. split; [auto|]. split.
  { split; [lia|]. intros p Hp. apply A'. apply pl_spec; auto. lia. }
  split; [auto|]. intros Em. destruct F' as (qs & Q1 & Q2); [apply pl_NoDup| |].
  - intros p Hp (q & _ & Q & _). rewrite Em in Q. destruct Q.
  - rewrite Q1, Em. cbn [app]. exact Q2.
Qed.

(* ---- conjugacy classes ---- *)

Definition same_irreps (s s' : sstate) : Prop := ss_irr s' = ss_irr s /\ nob s' = nob s /\ forall j, 0 <= j -> sn_irreps (ob s' j) = sn_irreps (ob s j).

Lemma same_irreps_trans a b c : same_irreps a b -> same_irreps b c -> same_irreps a c.
Proof. intros (A1 & A2 & A3) (B1 & B2 & B3). split; [congruence|]. split; [congruence|]. intros j Hj. rewrite B3, A3; auto. Qed.

Lemma upd_same_irreps s i o qu : 0 <= i < nob s -> sn_irreps o = sn_irreps (ob s i) -> same_irreps s (upd s i o (ss_irr s) qu).
Proof.
  intros Hi E. split; [reflexivity|]. split; [apply upd_nob; auto|]. intros j Hj. rewrite upd_ob by auto. destruct (Z.eqb_spec j i) as [->|]; auto.
Qed.

Lemma make_cclasses_ok i s : W s -> 0 <= i < nob s ->
  exists s', obj_make_cclasses i s = Ret s' /\ W s' /\ M s s' /\ same_irreps s s' /\ sn_ccl (ob s' i) = pl i.
Proof.
  intros Hw Hi. pose proof Hw as (_ & H). destruct (H i Hi) as (H1 & H2 & H3 & H4 & H7 & H8). unfold obj_make_cclasses. rewrite (rd_ok _ i dob) by exact Hi. cbn [bind]. fold (ob s i).
  destruct H7 as [(C1 & C2)|(C1 & C2)].
  - rewrite C1, C2. rewrite H1, ints_pl by lia. replace (i + 1 - 1) with i by lia. cbn [bind app]. unfold put_obj. rewrite wr_ok by exact Hi. cbn [bind].
    match goal with |- context [zupd (ss_objs s) i ?o] => set (o' := o) end. exists (upd s i o' (ss_irr s) (ss_quo s)). split; [reflexivity|]. split; [|split; [|split]].
    + apply upd_W; auto using pre_refl. unfold o'. split; [exact eq_refl|]. split; [exact H2|]. split; [exact H3|]. split; [exact H4|]. split; [|exact H8]. right. cbn [sn_ccl sn_cmap].
      split; [reflexivity|]. exists []. rewrite app_nil_r. auto.
    + apply upd_M; auto using pre_refl. unfold o'. split; [apply pre_refl|]. split; [rewrite C1; congruence|apply pre_refl].
    + apply upd_same_irreps; auto.
    + rewrite upd_ob by (auto; lia). rewrite Z.eqb_refl. reflexivity.
  - rewrite C1. pose proof (pl_nonempty i). destruct (pl i) eqn:Q; [congruence|]. exists s. split; [reflexivity|]. split; [auto|]. split; [apply M_refl|]. split; [split; [auto|split; auto]|].
    rewrite C1. auto.
Qed.

Lemma combine_in {A} (l : list A) d : forall lo x v, In (x, v) (combine l (zrange lo (lo + zlen l))) -> lo <= v < lo + zlen l /\ znth l (v - lo) d = x.
Proof.
  induction l as [|y l IH]; intros lo x v; [intros []|]. rewrite zlen_cons. pose proof (zlen_nonneg l). rewrite zrange_cons by lia. cbn [combine]. intros [E|E].
  - inversion E; subst. split; [lia|]. rewrite Z.sub_diag. reflexivity.
  - replace (lo + (zlen l + 1)) with ((lo + 1) + zlen l) in * by lia. destruct (IH (lo + 1) x v E) as (A1 & A2). split; [lia|]. rewrite znth_cons by lia.
    destruct (Z.eqb_spec (v - lo) 0); [lia|]. rewrite <- A2. f_equal. lia.
Qed.

Lemma combine_keys {A} (l : list A) lo : map fst (combine l (zrange lo (lo + zlen l))) = l.
Proof.
  revert lo. induction l as [|y l IH]; intros lo; [reflexivity|]. rewrite zlen_cons. pose proof (zlen_nonneg l). rewrite zrange_cons by lia. cbn [combine map fst]. f_equal.
  replace (lo + (zlen l + 1)) with ((lo + 1) + zlen l) by lia. apply IH.
Qed.

Lemma cindex_ok i lambda s : W s -> 0 <= i < nob s -> zsum lambda = i + 1 ->
  exists v s', obj_cindex i lambda s = Ret (v, s') /\ W s' /\ M s s' /\ same_irreps s s' /\ sn_ccl (ob s' i) = pl i /\ 0 <= v < zlen (pl i) /\
    (is_part (i + 1) lambda -> znth (pl i) v [] = lambda).
Proof.
  intros Hw Hi Hs. unfold obj_cindex. destruct (make_cclasses_ok i s Hw Hi) as (s1 & E1 & W1 & M1 & S1 & C1). rewrite E1. cbn [bind].
  assert (0 <= i < nob s1) as Hi1 by (destruct S1 as (_ & -> & _); auto). rewrite (rd_ok _ i dob) by exact Hi1. cbn [bind]. fold (ob s1 i).
  pose proof W1 as (_ & H). destruct (H i Hi1) as (H1 & H2 & H3 & H4 & H7 & H8). destruct H7 as [(C & _)|(_ & junk & C & F)]; [rewrite C in C1; symmetry in C1; apply pl_nonempty in C1; destruct C1|].
  assert (forall p, In p (pl i) -> is_part (i + 1) p) as PL by (intros; apply pl_spec; auto; lia).
  assert (0 < zlen (pl i)) as Lp by (pose proof (pl_nonempty i); destruct (pl i); [congruence|]; rewrite zlen_cons; pose proof (zlen_nonneg l0); lia).
  assert (Forall (fun kv => is_part (i + 1) (fst kv)) (combine (pl i) (zrange 0 (zlen (pl i))))) as F0.
  { apply Forall_forall. intros (k, v) Hk. cbn [fst]. apply in_combine_l in Hk. auto. }
  destruct (pm_scan_total (i + 1) (sn_cmap (ob s1 i)) lambda) as (r & Er & Hr); [|auto|].
  { rewrite C. apply Forall_app. split; [|eapply Forall_impl; [|exact F]; cbn; tauto]. eapply Forall_impl; [|exact F0]. cbn. intros a Ha. apply (is_part_sum _ _ Ha). }
  rewrite Er. cbn [bind]. destruct r as [v|].
  - exists v, s1. split; [reflexivity|]. split; [auto|]. split; [auto|]. split; [auto|]. split; [auto|]. split.
    + specialize (Hr v eq_refl). rewrite C, map_app in Hr. apply in_app_or in Hr. destruct Hr as [Hr|Hr].
      * apply in_map_iff in Hr. destruct Hr as ((k, v') & <- & Hk). cbn [snd]. apply (combine_in (pl i) [] 0) in Hk. lia.
      * apply in_map_iff in Hr. destruct Hr as ((k, v') & <- & Hk). rewrite Forall_forall in F. destruct (F _ Hk) as (_ & ->). lia.
    + intros Hl. destruct (pm_scan_part (i + 1) _ lambda F0 Hl) as [(w & E & I)|(_ & I)].
      * rewrite C, (pm_scan_app _ _ _ _ E) in Er. inversion Er; subst w. apply (combine_in (pl i) [] 0) in I. rewrite Z.sub_0_r in I. tauto.
      * exfalso. apply I. change (zlen (pl i)) with (0 + zlen (pl i)). rewrite combine_keys. apply pl_spec; auto. lia.
  - unfold put_obj. rewrite wr_ok by exact Hi1. cbn [bind]. match goal with |- context [zupd (ss_objs s1) i ?o] => set (o' := o) end.
    exists 0, (upd s1 i o' (ss_irr s1) (ss_quo s1)). split; [reflexivity|]. split; [|split; [|split; [|split; [|split; [lia|]]]]].
    + apply upd_W; auto using pre_refl. unfold o'. split; [exact H1|]. split; [exact H2|]. split; [exact H3|]. split; [exact H4|]. split; [|exact H8]. right. cbn [sn_ccl sn_cmap].
      split; [exact C1|]. exists (junk ++ [(lambda, 0)]). rewrite C, <- app_assoc. split; [reflexivity|]. apply Forall_app. split; [exact F|]. repeat constructor. exact Hs.
    + eapply M_trans; [exact M1|]. apply upd_M; auto using pre_refl. unfold o'. split; [apply pre_refl|]. split; [auto|apply pre_refl].
    + eapply same_irreps_trans; [exact S1|]. apply upd_same_irreps; auto.
    + rewrite upd_ob by (auto; lia). rewrite Z.eqb_refl. exact C1.
    + intros Hl. exfalso. destruct (pm_scan_part (i + 1) _ lambda F0 Hl) as [(w & E & I)|(_ & I)].
      * rewrite C, (pm_scan_app _ _ _ _ E) in Er. discriminate.
      * apply I. change (zlen (pl i)) with (0 + zlen (pl i)). rewrite combine_keys. apply pl_spec; auto. lia.
Qed.

Lemma cindex_foreign i lambda s : W s -> 0 <= i < nob s -> zsum lambda <> i + 1 -> obj_cindex i lambda s = Abort.
Proof.
  intros Hw Hi Hs. unfold obj_cindex. destruct (make_cclasses_ok i s Hw Hi) as (s1 & E1 & W1 & M1 & S1 & C1). rewrite E1. cbn [bind].
  assert (0 <= i < nob s1) as Hi1 by (destruct S1 as (_ & -> & _); auto). rewrite (rd_ok _ i dob) by exact Hi1. cbn [bind]. fold (ob s1 i).
  pose proof W1 as (_ & H). destruct (H i Hi1) as (_ & _ & _ & _ & H7 & _). destruct H7 as [(C & _)|(_ & junk & C & F)]; [rewrite C in C1; symmetry in C1; apply pl_nonempty in C1; destruct C1|].
  rewrite C. pose proof (pl_nonempty i) as NE. destruct (pl i) as [|p ps] eqn:Q; [congruence|]. rewrite zlen_cons. pose proof (zlen_nonneg ps). rewrite zrange_cons by lia. cbn [combine app pm_scan].
  rewrite lt_mixed_aborts; [reflexivity|]. assert (is_part (i + 1) p) as Hp by (apply pl_spec; [lia|rewrite Q; left; auto]). rewrite (is_part_sum _ _ Hp). auto.
Qed.

Lemma cclass_ok i v s : W s -> 0 <= i < nob s -> 0 <= v < zlen (pl i) ->
  exists s', obj_cclass i v s = Ret (znth (pl i) v [], s') /\ W s' /\ M s s' /\ same_irreps s s'.
Proof.
  intros Hw Hi Hv. unfold obj_cclass. destruct (make_cclasses_ok i s Hw Hi) as (s1 & E1 & W1 & M1 & S1 & C1). rewrite E1. cbn [bind].
  assert (0 <= i < nob s1) as Hi1 by (destruct S1 as (_ & -> & _); auto). rewrite (rd_ok _ i dob) by exact Hi1. cbn [bind]. fold (ob s1 i). rewrite C1.
  rewrite (rd_ok _ v []) by exact Hv. cbn [bind]. exists s1. auto.
Qed.

Lemma ncclasses_ok i s : W s -> 0 <= i < nob s ->
  exists s', obj_ncclasses i s = Ret (zlen (pl i), s') /\ W s' /\ M s s' /\ same_irreps s s'.
Proof.
  intros Hw Hi. unfold obj_ncclasses. destruct (make_cclasses_ok i s Hw Hi) as (s1 & E1 & W1 & M1 & S1 & C1). rewrite E1. cbn [bind].
  assert (0 <= i < nob s1) as Hi1 by (destruct S1 as (_ & -> & _); auto). rewrite (rd_ok _ i dob) by exact Hi1. cbn [bind]. fold (ob s1 i). rewrite C1. exists s1. auto.
Qed.

(* ---- quotients ---- *)

Definition has_over (s : sstate) (i m q : Z) : Prop := 0 <= i < nob s /\ In (m, q) (sn_over (ob s i)).

Lemma im_find_in l k : (exists v, im_find l k = Some v /\ In (k, v) l) \/ (im_find l k = None /\ ~ In k (map fst l)).
Proof.
  induction l as [|(j, v) l IH]; cbn [im_find map fst]; [right; auto|]. destruct (Z.eqb_spec j k) as [->|Ne].
  - left. exists v. split; [auto|left; auto].
  - destruct IH as [(w & E & I)|(E & I)]; [left; exists w; split; [auto|right; auto]|right; split; [auto|]]. intros [Q|Q]; auto.
Qed.

Lemma get_over_ok i m s : W s -> 0 <= i < nob s ->
  exists q s', obj_get_over i m s = Ret (q, s') /\ W s' /\ M s s' /\ same_irreps s s' /\ has_over s' i m q.
Proof.
  intros Hw Hi. pose proof Hw as (_ & H). destruct (H i Hi) as (H1 & H2 & H3 & H4 & H7 & H8 & H9). unfold obj_get_over. rewrite (rd_ok _ i dob) by exact Hi. cbn [bind]. fold (ob s i).
  destruct (im_find_in (sn_over (ob s i)) m) as [(q & E & I)|(E & I)]; rewrite E.
  - exists q, s. split; [reflexivity|]. split; [auto|]. split; [apply M_refl|]. split; [split; [auto|split; auto]|]. split; auto.
  - unfold put_obj. cbn [ss_objs ss_irr ss_quo ss_vec]. rewrite wr_ok by exact Hi. cbn [bind].
    match goal with |- context [zupd (ss_objs s) i ?o] => set (o' := o) end. set (qu' := ss_quo s ++ [(sn_n (ob s i), m)]).
    assert (pre (ss_quo s) qu') as P by apply pre_app.
    exists (zlen (ss_quo s)), (upd s i o' (ss_irr s) qu'). split; [reflexivity|]. split; [|split; [|split]].
    + apply upd_W; auto using pre_refl. unfold o'. split; [exact H1|]. split; [exact H2|]. split; [exact H3|]. split; [exact H4|]. split; [exact H7|]. cbn [sn_over]. split.
      * rewrite map_app. cbn [map fst]. apply (Permutation_NoDup (Permutation_cons_append _ _)). constructor; auto.
      * intros m' q' Hq. apply in_app_or in Hq. pose proof (pre_len _ _ P). destruct Hq as [Hq|[Hq|[]]].
        -- destruct (H9 _ _ Hq) as (A & B). split; [lia|]. unfold quo. rewrite (pre_nth (ss_quo s)); auto.
        -- inversion Hq; subst. unfold quo, qu'. pose proof (zlen_nonneg (ss_quo s)). rewrite zlen_app. change (zlen [(sn_n (ob s i), m')]) with 1. split; [lia|].
           rewrite znth_app by lia. destruct (Z.ltb_spec (zlen (ss_quo s)) (zlen (ss_quo s))); [lia|]. rewrite Z.sub_diag. rewrite H1. reflexivity.
    + apply upd_M; auto using pre_refl. unfold o'. split; [apply pre_refl|]. split; [auto|apply pre_app].
    + apply upd_same_irreps; auto.
    + split; [rewrite upd_nob by auto; auto|]. rewrite upd_ob by (auto; lia). rewrite Z.eqb_refl. unfold o'. cbn. apply in_or_app. right. left. auto.
Qed.

Lemma has_over_mono s s' i m q : M s s' -> has_over s i m q -> has_over s' i m q.
Proof. intros (A & _ & _ & G) (B & C). split; [lia|]. destruct (G i B) as (_ & _ & P). eapply pre_in; eauto. Qed.

Lemma has_over_fun s i m q q' : W s -> has_over s i m q -> has_over s i m q' -> q = q'.
Proof.
  intros (_ & H) (A & B) (_ & B'). destruct (H i A) as (_ & _ & _ & _ & _ & N & _). revert N B B'. generalize (sn_over (ob s i)).
  induction l as [|(a, b) l IH]; intros N B B'; [destruct B|]. cbn [map fst] in N. inv N. destruct B as [B|B], B' as [B'|B'].
  - congruence.
  - inversion B; subst. exfalso. apply H2. apply (in_map fst) in B'. exact B'.
  - inversion B'; subst. exfalso. apply H2. apply (in_map fst) in B. exact B.
  - auto.
Qed.
