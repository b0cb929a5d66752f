(* Sn/Sm enumeration and the statements used by Prop_Sn. *)
From Coq Require Import ZArith List Bool Lia ZifyBool ZifyNat.
From Verif Require Import Model_Base Model_Perm Model_Sn Model_Sn32 Spec_Perm Proof_Base Proof_Perm Proof_Cycles Proof_Sn.
Import ListNotations.
Open Scope Z_scope.

Lemma idx_unique v l i : 0 <= i < zlen l -> znth l i 0 = v -> (forall j, 0 <= j < i -> znth l j 0 <> v) -> idx v l = i.
Proof.
  revert i; induction l as [|x l IH]; intros i Hi E H; [unfold zlen in Hi; cbn in Hi; lia|].
  rewrite zlen_cons in Hi. simpl. rewrite znth_cons in E by lia.
  destruct (Z.eqb_spec i 0) as [->|N].
  - subst. rewrite Z.eqb_refl. reflexivity.
  - pose proof (H 0 ltac:(lia)) as H0. rewrite znth_cons in H0 by lia. cbn in H0.
    destruct (Z.eqb_spec x v); [contradiction|]. rewrite (IH (i - 1)); [lia|lia|assumption|].
    intros j Hj. specialize (H (j + 1) ltac:(lia)). rewrite znth_cons in H by lia.
    destruct (Z.eqb_spec (j + 1) 0); [lia|]. replace (j + 1 - 1) with j in H by lia. exact H.
Qed.

Lemma idx_zdel v j l : NoDup l -> 0 <= j < zlen l -> In v l -> znth l j 0 <> v ->
  idx v (zdel j l) = if idx v l <? j then idx v l else idx v l - 1.
Proof.
  intros HN Hj HI Hne. destruct (idx_In v l HI) as (B & E).
  assert (idx v l <> j) by congruence.
  apply idx_unique.
  - rewrite zlen_zdel by lia. destruct (Z.ltb_spec (idx v l) j); lia.
  - destruct (Z.ltb_spec (idx v l) j); rewrite znth_zdel by lia.
    + destruct (Z.ltb_spec (idx v l) j); [assumption|lia].
    + destruct (Z.ltb_spec (idx v l - 1) j); [lia|]. replace (idx v l - 1 + 1) with (idx v l) by lia. assumption.
  - intros i Hi. rewrite znth_zdel by (destruct (Z.ltb_spec (idx v l) j); lia).
    intros K. destruct (Z.ltb_spec (idx v l) j), (Z.ltb_spec i j); try lia;
      rewrite <- E in K; apply NoDup_znth in K; auto; lia.
Qed.

(* ---- the index in Sn/Sm ---- *)

Lemma snsm_round_ok t s l r nn : s = l ++ r -> is_perm nn l -> 1 <= nn ->
  exists r', snsm_round nn (t, s) = Ret (t + (nn - idx nn l - 1) * zfact (nn - 1), zdel (idx nn l) l ++ r') /\
    zlen r' = zlen r + 1.
Proof.
  intros -> Hl Hn. unfold snsm_round. pose proof (is_perm_len _ _ Hl) as HL. pose proof (zlen_nonneg r).
  destruct (idx_In nn l) as (B & E); [eapply is_perm_onto; eauto; lia|]. rewrite HL in B.
  set (T := t + (nn - idx nn l - 1) * zfact (nn - 1)).
  match goal with |- context[zforb 0 nn ?b tt] => set (body := b) end.
  assert (zforb 0 nn body tt = Ret (inr (idx nn l, T))) as EF.
  { assert (forall k, 0 <= k <= idx nn l -> zforb k nn body tt = Ret (inr (idx nn l, T))) as G; [|apply G; lia].
    intros k. remember (Z.to_nat (idx nn l - k)) as w eqn:Ew. revert k Ew.
    induction w as [|w IH]; intros k Ew Hk; rewrite zforb_cons by lia; unfold body at 1;
      rewrite (rd_ok _ k 0) by (rewrite zlen_app; lia); cbn [bind]; rewrite znth_app by lia;
      destruct (Z.ltb_spec k (zlen l)); try lia.
    - replace k with (idx nn l) in * by lia. rewrite E, Z.eqb_refl. cbn [bind]. reflexivity.
    - destruct (Z.eqb_spec (znth l k 0) nn) as [K|K].
      + exfalso. rewrite <- E in K. destruct Hl as (_ & _ & HN). apply NoDup_znth in K; auto; lia.
      + cbn [bind]. apply IH; lia. }
  rewrite EF. cbn [bind].
  destruct (zfor_inv (fun k s' => zlen s' = nn + zlen r /\ (forall i, 0 <= i < nn + zlen r ->
       znth s' i 0 = if (idx nn l <=? i) && (i <? k - 1) then znth (l ++ r) (i + 1) 0 else znth (l ++ r) i 0))
     (idx nn l + 1) nn (fun i s => v <- rd s i ;; wr s (i - 1) v) (l ++ r)) as (s' & E' & L' & H').
  - lia.
  - split; [rewrite zlen_app; lia|]. intros i Hi.
    destruct (Z.leb_spec (idx nn l) i), (Z.ltb_spec i (idx nn l + 1 - 1)); cbn [andb]; auto; lia.
  - intros k s0 Hk (L0 & H0). rewrite (rd_ok s0 k 0) by lia. cbn [bind]. rewrite wr_ok by lia.
    eexists; split; [reflexivity|]. split; [rewrite zlen_zupd; lia|].
    intros i Hi. rewrite znth_zupd by lia. rewrite !H0 by lia.
    destruct (Z.eqb_spec i (k - 1)).
    + subst i. destruct (Z.leb_spec (idx nn l) k), (Z.ltb_spec k (k - 1)), (Z.leb_spec (idx nn l) (k - 1)),
        (Z.ltb_spec (k - 1) (k + 1 - 1)); cbn [andb]; try lia. f_equal; lia.
    + destruct (Z.leb_spec (idx nn l) i), (Z.ltb_spec i (k - 1)), (Z.ltb_spec i (k + 1 - 1)); cbn [andb]; try lia; auto.
  - rewrite E'. cbn [bind]. exists (skipn (Z.to_nat (nn - 1)) s'). split; [|rewrite zlen_skipn; lia].
    f_equal. f_equal. rewrite <- (firstn_skipn (Z.to_nat (nn - 1)) s') at 1. f_equal.
    apply list_ext with (d := 0).
    + rewrite zlen_firstn, zlen_zdel; lia.
    + intros i Hi. rewrite zlen_firstn in Hi by lia. rewrite znth_firstn by lia. rewrite H' by lia.
      rewrite znth_zdel by lia. rewrite !znth_app by lia.
      destruct (Z.leb_spec (idx nn l) i), (Z.ltb_spec i (nn - 1)), (Z.ltb_spec i (idx nn l)); cbn [andb]; try lia.
      * destruct (Z.ltb_spec (i + 1) (zlen l)); [reflexivity|lia].
      * destruct (Z.ltb_spec i (zlen l)); [reflexivity|lia].
Qed.

(* what remains of a permutation after removing the values n, n-1, ..., n-j+1 *)
Fixpoint strip (j : nat) (n : Z) (l : list Z) : list Z :=
  match j with
  | O => l
  | S j' => strip j' (n - 1) (zdel (idx n l) l)
  end.

Lemma snsm_loop j : forall n l t r, Z.of_nat j <= n -> is_perm n l ->
  exists r', zford n (n - Z.of_nat j + 1) snsm_round (t, l ++ r) =
    Ret (t + (idn (Z.to_nat n) l - idn (Z.to_nat (n - Z.of_nat j)) (strip j n l)), strip j n l ++ r').
Proof.
  induction j as [|j IH]; intros n l t r Hj Hl.
  - exists r. rewrite zford_nil by lia. cbn [strip]. f_equal. f_equal. replace (n - Z.of_nat 0) with n by lia. lia.
  - rewrite zford_cons by lia. destruct (snsm_round_ok t _ l r n eq_refl Hl) as (r1 & E1 & _); [lia|].
    rewrite E1. cbn [bind].
    destruct (IH (n - 1) (zdel (idx n l) l) (t + (n - idx n l - 1) * zfact (n - 1)) r1) as (r2 & E2).
    + lia.
    + apply is_perm_zdel; auto; lia.
    + replace (n - 1 - Z.of_nat j) with (n - Z.of_nat (S j)) in E2 by lia. rewrite E2.
      exists r2. cbn [strip]. f_equal. f_equal.
      replace (Z.to_nat n) with (S (Z.to_nat (n - 1))) by lia. cbn [idn].
      replace (Z.of_nat (S (Z.to_nat (n - 1)))) with n by lia.
      replace (Z.of_nat (Z.to_nat (n - 1))) with (n - 1) by lia. fold (zfact (n - 1)). lia.
Qed.

Lemma is_perm_strip j : forall n l, Z.of_nat j <= n -> is_perm n l -> is_perm (n - Z.of_nat j) (strip j n l).
Proof.
  induction j as [|j IH]; intros n l Hj Hl; cbn [strip].
  - replace (n - Z.of_nat 0) with n by lia. auto.
  - replace (n - Z.of_nat (S j)) with (n - 1 - Z.of_nat j) by lia. apply IH; [lia|].
    apply is_perm_zdel; auto; lia.
Qed.

Lemma idn_strip_mod j : forall n l, Z.of_nat j <= n -> is_perm n l ->
  (zfact (n - Z.of_nat j) | idn (Z.to_nat n) l - idn (Z.to_nat (n - Z.of_nat j)) (strip j n l)).
Proof.
  induction j as [|j IH]; intros n l Hj Hl; cbn [strip].
  - replace (n - Z.of_nat 0) with n by lia. rewrite Z.sub_diag. apply Z.divide_0_r.
  - specialize (IH (n - 1) (zdel (idx n l) l) ltac:(lia) (is_perm_zdel n l ltac:(lia) Hl)).
    replace (n - 1 - Z.of_nat j) with (n - Z.of_nat (S j)) in IH by lia.
    replace (Z.to_nat n) with (S (Z.to_nat (n - 1))) by lia. cbn [idn].
    replace (Z.of_nat (S (Z.to_nat (n - 1)))) with n by lia.
    match goal with |- (_ | ?x + ?y - ?z) => replace (x + y - z) with ((x - z) + y) by lia end.
    apply Z.divide_add_r; [exact IH|]. apply Z.divide_mul_r. fold (zfact (n - 1)).
    apply zfact_divide. lia.
Qed.

Lemma snsm_index_ok n m l : 0 <= m <= n -> is_perm n l ->
  snsm_index n m l = Ret (idn (Z.to_nat n) l / zfact m).
Proof.
  intros Hm Hl. unfold snsm_index. rewrite (is_perm_len _ _ Hl), Z.eqb_refl. cbn [assert_ bind].
  destruct (snsm_loop (Z.to_nat (n - m)) n l 0 []) as (r & E); [lia|auto|].
  replace (n - Z.of_nat (Z.to_nat (n - m))) with m in E by lia. rewrite app_nil_r in E. rewrite E. cbn [bind fst].
  pose proof (is_perm_strip (Z.to_nat (n - m)) n l ltac:(lia) Hl) as Hs.
  pose proof (idn_strip_mod (Z.to_nat (n - m)) n l ltac:(lia) Hl) as Hd.
  replace (n - Z.of_nat (Z.to_nat (n - m))) with m in * by lia.
  pose proof (idn_bound (Z.to_nat m) (strip (Z.to_nat (n - m)) n l)) as B.
  replace (Z.of_nat (Z.to_nat m)) with m in B by lia. specialize (B Hs). fold (zfact m) in B.
  pose proof (idn_bound (Z.to_nat n) l) as B'. replace (Z.of_nat (Z.to_nat n)) with n in B' by lia. specialize (B' Hl).
  set (x := idn (Z.to_nat n) l) in *. set (y := idn (Z.to_nat m) _) in *. destruct Hd as (q & Hq).
  pose proof (zfact_pos m).
  assert (0 <= q) by nia. rewrite cdiv_ok by nia. f_equal. replace (0 + (x - y)) with (q * zfact m) by lia.
  rewrite Z.div_mul by lia. apply Z.div_unique with y; lia.
Qed.

Lemma snsm_element_ok n m e : 0 <= m <= n -> 0 <= e * zfact m < zfact n ->
  snsm_element n m e = Ret (elt (Z.to_nat n) (e * zfact m)).
Proof.
  intros Hm He. unfold snsm_element. rewrite p_identity_ok by lia. cbn [bind].
  destruct (sn_digits_ok n m (e * zfact m)) as (s & E & HL & HD); [lia|lia|]. rewrite E. cbn [bind].
  apply (insert_loop n m (e * zfact m) s); auto; try lia.
  apply Z.mod_mul. pose proof (zfact_pos m); lia.
Qed.

Lemma snsm_size_ok n m : 0 <= m <= n -> exists k, snsm_size n m = Ret k /\ k * zfact m = zfact n.
Proof.
  intros H. pose proof (zfact_pos m). pose proof (zfact_pos n).
  unfold snsm_size. rewrite cdiv_ok by lia. eexists; split; [reflexivity|].
  destruct (zfact_divide m n H) as (q & ->). rewrite Z.div_mul by lia. reflexivity.
Qed.

(* ---- cosets ---- *)

Lemma idn_div_positions j : forall n s t, Z.of_nat j <= n -> is_perm n s -> is_perm n t ->
  (idn (Z.to_nat n) s / zfact (n - Z.of_nat j) = idn (Z.to_nat n) t / zfact (n - Z.of_nat j) <->
   forall v, n - Z.of_nat j < v <= n -> idx v s = idx v t).
Proof.
  induction j as [|j IH]; intros n s t Hj Hs Ht.
  - replace (n - Z.of_nat 0) with n by lia.
    pose proof (idn_bound (Z.to_nat n) s) as B1. pose proof (idn_bound (Z.to_nat n) t) as B2.
    replace (Z.of_nat (Z.to_nat n)) with n in * by lia. specialize (B1 Hs). specialize (B2 Ht).
    fold (zfact n) in *. rewrite !Z.div_small by lia. split; auto. intros _ v Hv. lia.
  - pose proof (is_perm_zdel n s ltac:(lia) Hs) as Hs'. pose proof (is_perm_zdel n t ltac:(lia) Ht) as Ht'.
    specialize (IH (n - 1) _ _ ltac:(lia) Hs' Ht').
    replace (n - 1 - Z.of_nat j) with (n - Z.of_nat (S j)) in IH by lia. set (m := n - Z.of_nat (S j)) in *.
    pose proof (idn_bound (Z.to_nat (n - 1)) (zdel (idx n s) s)) as B1.
    pose proof (idn_bound (Z.to_nat (n - 1)) (zdel (idx n t) t)) as B2.
    replace (Z.of_nat (Z.to_nat (n - 1))) with (n - 1) in * by lia. specialize (B1 Hs'). specialize (B2 Ht').
    fold (zfact (n - 1)) in B1, B2.
    assert (In n s /\ In n t) as (In1 & In2) by (split; eapply is_perm_onto; eauto; lia).
    destruct (idx_In n s In1) as (Bs & Es). destruct (idx_In n t In2) as (Bt & Et).
    rewrite (is_perm_len _ _ Hs) in Bs. rewrite (is_perm_len _ _ Ht) in Bt.
    assert (idn (Z.to_nat n) s = idn (Z.to_nat (n - 1)) (zdel (idx n s) s) + (n - 1 - idx n s) * zfact (n - 1) /\
            idn (Z.to_nat n) t = idn (Z.to_nat (n - 1)) (zdel (idx n t) t) + (n - 1 - idx n t) * zfact (n - 1)) as (R1 & R2).
    { replace (Z.to_nat n) with (S (Z.to_nat (n - 1))) by lia. cbn [idn].
      replace (Z.of_nat (S (Z.to_nat (n - 1)))) with n by lia.
      replace (Z.of_nat (Z.to_nat (n - 1))) with (n - 1) by lia. auto. }
    rewrite R1, R2. clear R1 R2.
    destruct (zfact_divide m (n - 1)) as (q & Hq); [lia|].
    pose proof (zfact_pos m) as Pm. pose proof (zfact_pos (n - 1)) as Pn.
    set (x := idn _ (zdel (idx n s) s)) in *. set (y := idn _ (zdel (idx n t) t)) in *.
    rewrite !Hq, !Z.mul_assoc, !Z.div_add by lia.
    assert (0 <= x / zfact m < q) as X.
    { split; [apply Z.div_pos; lia|apply Z.div_lt_upper_bound; lia]. }
    assert (0 <= y / zfact m < q) as Y.
    { split; [apply Z.div_pos; lia|apply Z.div_lt_upper_bound; lia]. }
    assert (idx n s = idx n t -> forall v, m < v <= n - 1 ->
       (idx v (zdel (idx n s) s) = idx v (zdel (idx n t) t) <-> idx v s = idx v t)) as Pos.
    { intros Ei v Hv.
      assert (In v s /\ In v t) as (I1 & I2) by (split; eapply is_perm_onto; eauto; lia).
      pose proof (idx_In v s I1) as (Bvs & Evs). pose proof (idx_In v t I2) as (Bvt & Evt).
      assert (idx v s <> idx n s) by (intros K; rewrite K, Es in Evs; lia).
      assert (idx v t <> idx n t) by (intros K; rewrite K, Et in Evt; lia).
      rewrite !idx_zdel; auto; try lia; try (apply Hs || apply Ht);
        rewrite ?(is_perm_len _ _ Hs), ?(is_perm_len _ _ Ht); try lia.
      rewrite Ei. destruct (Z.ltb_spec (idx v s) (idx n t)), (Z.ltb_spec (idx v t) (idx n t)); lia. }
    split.
    + intros E. assert (idx n s = idx n t) as Ei by nia.
      assert (x / zfact m = y / zfact m) as Ex by nia.
      intros v Hv. destruct (Z.eq_dec v n) as [->|Hne]; auto.
      apply Pos; [auto|lia|]. apply IH; [auto|lia].
    + intros H. assert (idx n s = idx n t) as Ei by (apply H; lia).
      assert (x / zfact m = y / zfact m) as Ex.
      { apply IH. intros v Hv. apply Pos; [auto|lia|]. apply H; lia. }
      rewrite Ei, Ex. reflexivity.
Qed.

Lemma idx_pmul n r s v : is_perm n r -> is_perm n s -> 1 <= v <= n -> img r v = v ->
  idx v (pmul r s) = idx v s.
Proof.
  intros Hr Hs Hv Ev. assert (In v s) as I by (eapply is_perm_onto; eauto).
  destruct (idx_In v s I) as (B & E). pose proof (is_perm_len _ _ Hs) as HL.
  assert (znth (pmul r s) (idx v s) 0 = v) as K.
  { pose proof (img_pmul r s (idx v s + 1) ltac:(lia)) as P.
    unfold img in P at 1 3. replace (idx v s + 1 - 1) with (idx v s) in P by lia.
    change (nth (Z.to_nat (idx v s)) s 0) with (znth s (idx v s) 0) in P. rewrite E, Ev in P. exact P. }
  rewrite <- K at 1. apply idx_znth; [apply (is_perm_pmul n r s Hr Hs)|rewrite zlen_pmul; lia].
Qed.

Lemma coset_positions n m s t : 0 <= m -> is_perm n s -> is_perm n t ->
  ((exists r, is_perm n r /\ (forall k, m < k <= n -> img r k = k) /\ pmul r s = t) <->
   (forall v, m < v <= n -> 1 <= v -> idx v s = idx v t)).
Proof.
  intros Hm Hs Ht. split.
  - intros (r & Hr & Hf & <-) v Hv H1. symmetry. apply (idx_pmul n); auto. lia.
  - intros H. exists (pmul t (pinv s)). split; [apply is_perm_pmul; auto using is_perm_pinv|]. split.
    + intros k Hk. destruct (Z_le_dec 1 k).
      * rewrite img_pmul by (rewrite zlen_pinv, (is_perm_len _ _ Hs); lia).
        pose proof (img_pinv_range n s k Hs ltac:(lia)) as R.
        assert (img (pinv s) k = idx k s + 1) as E1.
        { unfold pinv. rewrite img_ztab by (rewrite (is_perm_len _ _ Hs); lia).
          replace (k - 1 + 1) with k by lia. reflexivity. }
        rewrite E1, H by lia. destruct (idx_In k t) as (B & E); [eapply is_perm_onto; eauto; lia|].
        unfold img. replace (idx k t + 1 - 1) with (idx k t) by lia. exact E.
      * exfalso. lia.
    + rewrite (pmul_assoc n); auto using is_perm_pinv. rewrite (pmul_pinv_l n) by auto. apply (pmul_pid_r n); auto.
Qed.

(* ---- out-of-range indices ---- *)

Definition quiet {A} (o : outcome A) : Prop := o = UB \/ exists x, o = Ret x.

Lemma quiet_bind {A B} (m : outcome A) (f : A -> outcome B) : quiet m -> (forall a, quiet (f a)) -> quiet (bind m f).
Proof. intros [->|(x & ->)] H; cbn [bind]; [left; reflexivity|apply H]. Qed.

Lemma quiet_rd {A} (l : list A) i : quiet (rd l i).
Proof. unfold rd. destruct (0 <=? i); [|left; reflexivity]. destruct (nth_error l _); [right; eauto|left; reflexivity]. Qed.

Lemma quiet_wr {A} (l : list A) i x : quiet (wr l i x).
Proof. unfold wr. destruct (_ && _); [right; eauto|left; reflexivity]. Qed.

Lemma quiet_foldM {S I} (body : I -> S -> outcome S) l s : (forall i s, quiet (body i s)) -> quiet (foldM body l s).
Proof.
  intros H. revert s; induction l as [|i l IH]; intros s; cbn [foldM]; [right; eauto|].
  apply quiet_bind; auto.
Qed.

Lemma foldM_UB {S I} (body : I -> S -> outcome S) l s i :
  (forall i s, quiet (body i s)) -> In i l -> (forall s, body i s = UB) -> foldM body l s = UB.
Proof.
  intros H Hi HU. revert s; induction l as [|k l IH]; intros s; cbn [foldM]; [destruct Hi|].
  destruct Hi as [->|Hi]; [rewrite HU; reflexivity|].
  destruct (H k s) as [->|(x & ->)]; cbn [bind]; auto.
Qed.

Lemma quiet_sn_insert s i p : quiet (sn_insert s i p).
Proof.
  unfold sn_insert. apply quiet_bind; [apply quiet_rd|]. intros t.
  apply quiet_bind; [|intros; apply quiet_wr].
  apply quiet_foldM. intros. apply quiet_bind; [apply quiet_rd|intros; apply quiet_wr].
Qed.

Lemma sn_digits_top n m e : 0 <= m < n -> 0 <= e ->
  exists s, sn_digits n m e = Ret s /\ zlen s = n /\ znth s (n - 1) 0 = n - e / zfact (n - 1).
Proof.
  intros Hm He. unfold sn_digits.
  match goal with |- context[zford n (m + 1) ?b ?s] =>
    destruct (zford_inv (fun i (st : list Z * Z) => zlen (fst st) = n /\ 0 <= snd st /\
      (i = n -> snd st = e) /\ (i < n -> znth (fst st) (n - 1) 0 = n - e / zfact (n - 1)))
     (m + 1) n b s) as ((s' & e') & E & H1 & H2 & H3 & H4) end.
  - lia.
  - cbn. rewrite zlen_repeat. repeat split; lia.
  - intros i (s & e0) Hi (H1 & H2 & H3 & H4). cbn [fst snd] in *.
    pose proof (zfact_pos (i - 1)).
    rewrite cdiv_ok by lia. cbn [bind]. rewrite wr_ok by lia. cbn [bind].
    rewrite cmod_ok by lia. cbn [bind]. eexists; split; [reflexivity|]. cbn [fst snd].
    split; [rewrite zlen_zupd; lia|]. split; [apply Z.mod_pos_bound; lia|]. split; [lia|].
    intros _. rewrite znth_zupd by lia. destruct (Z.eqb_spec (n - 1) (i - 1)).
    + replace i with n in * by lia. rewrite H3 by reflexivity. reflexivity.
    + apply H4. lia.
  - rewrite E. cbn [bind fst] in *. exists s'. split; [reflexivity|]. split; [assumption|]. apply H4. lia.
Qed.

Lemma insert_out n m s p : m + 1 <= n -> zlen s = n -> znth s (n - 1) 0 <= 0 -> 1 <= n ->
  zfor (m + 1) (n + 1) (fun i p => sn_insert s i p) p = UB.
Proof.
  intros Hm Hs Ht Hn. unfold zfor. apply foldM_UB with (i := n).
  - intros; apply quiet_sn_insert.
  - apply in_zrange. lia.
  - intros q. unfold sn_insert. rewrite (rd_ok s (n - 1) 0) by lia. cbn [bind].
    set (t := znth s (n - 1) 0) in *. unfold zford.
    rewrite foldM_UB with (i := 1); [reflexivity| | |].
    + intros. apply quiet_bind; [apply quiet_rd|intros; apply quiet_wr].
    + apply in_rev. rewrite rev_involutive. apply in_zrange. lia.
    + intros. rewrite rd_out by lia. reflexivity.
Qed.

Lemma sn_element_out n e : 2 <= n -> zfact n <= e -> sn_element n e = UB.
Proof.
  intros Hn He. unfold sn_element. rewrite p_identity_ok by lia. cbn [bind].
  pose proof (zfact_pos n). pose proof (zfact_pos (n - 1)).
  destruct (sn_digits_top n 0 e) as (s & E & HL & HD); [lia|lia|]. rewrite E. cbn [bind].
  apply (insert_out n 1 s); auto; try lia.
  rewrite HD. assert (n <= e / zfact (n - 1)); [|lia].
  apply Z.div_le_lower_bound; [lia|]. rewrite zfact_step in He by lia. lia.
Qed.

(* ---- C07 ---- *)

Lemma sn_bijection n : 1 <= n ->
  (forall i, 0 <= i < zfact n -> exists s, sn_element n i = Ret s /\ is_perm n s /\ sn_index n s = Ret i) /\
  (forall s, is_perm n s -> exists i, sn_index n s = Ret i /\ 0 <= i < zfact n /\ sn_element n i = Ret s).
Proof.
  intros Hn. split.
  - intros i Hi. exists (elt (Z.to_nat n) i). rewrite sn_element_ok by lia. split; [reflexivity|].
    pose proof (is_perm_elt (Z.to_nat n) i) as P. replace (Z.of_nat (Z.to_nat n)) with n in P by lia.
    split; [exact P|]. rewrite sn_index_ok by auto. rewrite idn_elt; [reflexivity|]. exact Hi.
  - intros s Hs. exists (idn (Z.to_nat n) s). rewrite sn_index_ok by auto. split; [reflexivity|].
    assert (is_perm (Z.of_nat (Z.to_nat n)) s) as Hs' by (replace (Z.of_nat (Z.to_nat n)) with n by lia; auto).
    pose proof (idn_bound (Z.to_nat n) s Hs') as B. fold (zfact n) in B. split; [exact B|].
    rewrite sn_element_ok by lia. rewrite elt_idn by auto. reflexivity.
Qed.

(* ---- C08 ---- *)

Lemma sn_element_zero n : 1 <= n -> sn_element n 0 = p_identity n.
Proof.
  intros Hn. pose proof (zfact_pos n). rewrite sn_element_ok, p_identity_ok by lia. rewrite elt_0, pid_zrange.
  f_equal. f_equal. lia.
Qed.

Lemma sn_nested n a r : 2 <= n -> 0 <= a < n -> 0 <= r < zfact (n - 1) ->
  exists q, sn_element (n - 1) r = Ret q /\
    sn_element n (a * zfact (n - 1) + r) =
      Ret (firstn (Z.to_nat (n - 1 - a)) q ++ [n] ++ skipn (Z.to_nat (n - 1 - a)) q).
Proof.
  intros Hn Ha Hr. exists (elt (Z.to_nat (n - 1)) r). rewrite sn_element_ok by lia. split; [reflexivity|].
  pose proof (zfact_pos (n - 1)).
  rewrite sn_element_ok by (rewrite ?(zfact_step n) by lia; nia).
  f_equal. replace (Z.to_nat n) with (S (Z.to_nat (n - 1))) by lia. cbn [elt]. fold (zfact (n - 1)).
  rewrite (Z.add_comm _ r), Z.div_add, Z.mod_add, Z.div_small, Z.mod_small by lia.
  unfold zins. replace (Z.of_nat (S (Z.to_nat (n - 1)))) with n by lia.
  replace (Z.of_nat (Z.to_nat (n - 1)) - (0 + a)) with (n - 1 - a) by lia. reflexivity.
Qed.

Lemma sn_nested_first n r : 2 <= n -> 0 <= r < zfact (n - 1) ->
  exists q, sn_element (n - 1) r = Ret q /\ sn_element n r = Ret (q ++ [n]).
Proof.
  intros Hn Hr. destruct (sn_nested n 0 r Hn ltac:(lia) Hr) as (q & E1 & E2).
  exists q. split; [auto|]. cbn [Z.mul Z.add] in E2. rewrite E2. f_equal.
  rewrite sn_element_ok in E1 by lia. injection E1 as <-.
  pose proof (zlen_elt (Z.to_nat (n - 1)) r) as L. unfold zlen in L.
  rewrite firstn_all2, skipn_all2 by lia. reflexivity.
Qed.

(* ---- C09 ---- *)

Lemma zfact32_ok n : n <= 12 -> zfact32 n = Ret (zfact n).
Proof.
  intros Hn. unfold zfact32. destruct (Z_lt_dec n 0).
  { rewrite zfor_nil by lia. unfold zfact. replace (Z.to_nat n) with O by lia. reflexivity. }
  destruct (zfor_inv (fun i f => f = zfact (i - 1)) 1 (n + 1) (fun i f => i32 (f * i)) 1) as (f & E & ->).
  - lia.
  - reflexivity.
  - intros i f Hi ->. exists (zfact i). split; [|f_equal; lia].
    rewrite (zfact_step i) by lia. rewrite (Z.mul_comm i). rewrite Z.mul_comm, <- zfact_step by lia.
    pose proof (zfact_le i 12 ltac:(lia)) as B. change (zfact 12) with 479001600 in B. pose proof (zfact_pos i).
    unfold i32. destruct (Z.leb_spec (-2147483648) (zfact i)), (Z.leb_spec (zfact i) 2147483647); cbn [andb]; try lia. reflexivity.
  - rewrite E. f_equal. f_equal. lia.
Qed.

Lemma zfact32_overflow n : 13 <= n -> zfact32 n = UB.
Proof.
  intros Hn. unfold zfact32, zfor. rewrite (zrange_app 1 14 (n + 1)) by lia. rewrite foldM_app.
  replace (foldM (fun i f => i32 (f * i)) (zrange 1 14) 1) with (@UB Z) by reflexivity. reflexivity.
Qed.

Lemma foldM_ext_inv {S I} (P : S -> Prop) (f g : I -> S -> outcome S) l s : P s ->
  (forall i s, In i l -> P s -> f i s = g i s /\ forall s', g i s = Ret s' -> P s') ->
  foldM f l s = foldM g l s.
Proof.
  revert s; induction l as [|i l IH]; intros s HP H; cbn [foldM]; [reflexivity|].
  destruct (H i s (or_introl eq_refl) HP) as (E & K). rewrite E.
  destruct (g i s) eqn:Eg; cbn [bind]; auto. apply IH; [apply K; reflexivity|].
  intros j s' Hj. apply H. right; auto.
Qed.

Lemma sn_digits32_ok n m e : 0 <= m -> n <= 12 -> 0 <= e <= 2147483647 -> sn_digits32 n m e = sn_digits n m e.
Proof.
  intros Hm Hn He. unfold sn_digits32, sn_digits. f_equal. unfold zford.
  apply foldM_ext_inv with (P := fun st => 0 <= snd st <= 2147483647); [exact He|].
  intros i (s & e0) Hi He0. cbn [snd] in He0. apply in_rev, in_zrange in Hi.
  rewrite zfact32_ok by lia. cbn [bind]. pose proof (zfact_pos (i - 1)).
  rewrite cdiv_ok, cmod_ok by lia. cbn [bind].
  assert (0 <= e0 / zfact (i - 1) <= e0) as B.
  { split; [apply Z.div_pos; lia|]. apply Z.div_le_upper_bound; nia. }
  assert (0 <= e0 mod zfact (i - 1) <= e0) as B'.
  { split; [apply Z.mod_pos_bound; lia|]. apply Z.mod_le; lia. }
  unfold i32. destruct (Z.leb_spec (-2147483648) (i - e0 / zfact (i - 1))),
    (Z.leb_spec (i - e0 / zfact (i - 1)) 2147483647); cbn [andb bind]; try lia.
  split; [reflexivity|]. intros (s' & e') E.
  destruct (wr s (i - 1) (i - e0 / zfact (i - 1))); cbn [bind] in E; try discriminate. injection E as <- <-. cbn [snd]. lia.
Qed.

Lemma i32_ok x : 0 <= x <= 2147483647 -> i32 x = Ret x.
Proof. intros H. unfold i32. destruct (Z.leb_spec (-2147483648) x), (Z.leb_spec x 2147483647); cbn [andb]; try lia; auto. Qed.

Lemma sn_index_rec32_ok k sigma : Z.of_nat (S k) <= 12 -> is_perm (Z.of_nat (S k)) sigma ->
  sn_index_rec32 k sigma = sn_index_rec k sigma.
Proof.
  revert sigma; induction k as [|k IH]; intros sigma Hk H; [reflexivity|].
  pose proof (sn_index_rec_ok (S k) sigma H) as R.
  pose proof (idn_bound _ _ H) as Bd.
  cbn [sn_index_rec sn_index_rec32] in *. set (n := Z.of_nat (S k) + 1) in *.
  replace (Z.of_nat (S (S k))) with n in * by lia.
  pose proof (is_perm_len _ _ H) as HL. rewrite HL, Z.eqb_refl in *. cbn [assert_ bind] in *.
  rewrite alloc_ok in * by lia. cbn [bind] in *.
  assert (In n sigma) as HI by (eapply is_perm_onto; eauto; lia).
  destruct (idx_In n sigma HI) as (B & E).
  destruct (index_copy_loop n sigma (repeat None (Z.to_nat (n - 1)))) as (tau & E1 & L1 & F1);
    auto; try lia; [rewrite zlen_repeat; lia|].
  rewrite E1 in *. cbn [bind] in *.
  destruct (zfor (idx n sigma + 1) n (fun i tau => v <- rd sigma i ;; wr tau (i - 1) (Some v)) tau) as [tau2| | |] eqn:E2;
    cbn [bind] in *; try reflexivity.
  destruct (freeze tau2) as [tau3| | |] eqn:E3; cbn [bind] in *; try reflexivity.
  destruct (sn_index_rec k tau3) as [x| | |] eqn:E4; cbn [bind] in R; try discriminate R.
  assert (zfact (n - 1) <= 479001600) as BF by (apply (zfact_le (n - 1) 12); lia).
  assert (zfactn (S (S k)) <= 479001600) as BF2.
  { pose proof (zfact_le n 12 ltac:(lia)) as BB. change (zfact 12) with 479001600 in BB.
    unfold zfact in BB. replace (Z.to_nat n) with (S (S k)) in BB by lia. exact BB. }
  pose proof (zfact_pos (n - 1)) as BP.
  assert (is_perm (n - 1) tau3) as P3.
  { clear IH R E4.
    destruct (zfor_inv (fun i t => zlen t = n - 1 /\
       (forall j, 0 <= j < idx n sigma -> znth t j None = Some (znth sigma j 0)) /\
       (forall j, idx n sigma <= j < i - 1 -> znth t j None = Some (znth sigma (j + 1) 0)))
       (idx n sigma + 1) n (fun i tau => v <- rd sigma i ;; wr tau (i - 1) (Some v)) tau)
      as (tau2' & E2' & L2 & F2 & G2).
    - lia.
    - split; [auto|]. split; [auto|]. intros; lia.
    - intros i t Hi (K1 & K2 & K3). rewrite (rd_ok sigma i 0) by lia. cbn [bind]. rewrite wr_ok by lia.
      eexists; split; [reflexivity|]. split; [rewrite zlen_zupd; lia|]. split.
      * intros j Hj. rewrite znth_zupd by lia. destruct (Z.eqb_spec j (i - 1)); [lia|]. apply K2; lia.
      * intros j Hj. rewrite znth_zupd by lia. destruct (Z.eqb_spec j (i - 1)).
        -- f_equal. f_equal. lia.
        -- apply K3; lia.
    - rewrite E2 in E2'. injection E2' as <-.
      rewrite (freeze_ok tau2 (zdel (idx n sigma) sigma) 0) in E3.
      * injection E3 as <-. apply is_perm_zdel; auto. lia.
      * rewrite zlen_zdel; lia.
      * intros i Hi. rewrite zlen_zdel in Hi by lia. rewrite znth_zdel by lia.
        destruct (Z.ltb_spec i (idx n sigma)); [apply F2; lia|apply G2; lia]. }
  replace (n - 1) with (Z.of_nat (S k)) in P3 by lia.
  rewrite IH by (auto; lia). rewrite E4. cbn [bind].
  pose proof (sn_index_rec_ok k tau3 P3) as R4. rewrite R4 in E4. apply Ret_inj in E4.
  pose proof (idn_bound _ _ P3) as B3. apply Ret_inj in R.
  rewrite zfact32_ok by lia. cbn [bind].
  rewrite i32_ok by nia. cbn [bind]. rewrite i32_ok by nia. reflexivity.
Qed.

Lemma int32_sufficient n : 1 <= n <= 12 ->
  sn_size32 n = Ret (sn_size n) /\
  (forall e, 0 <= e < sn_size n -> sn_element32 n e = sn_element n e) /\
  (forall s, is_perm n s -> sn_index32 n s = sn_index n s) /\
  (forall m e k, 1 <= m <= n -> snsm_size n m = Ret k -> 0 <= e < k -> snsm_element32 n m e = snsm_element n m e).
Proof.
  intros Hn.
  assert (zfact n <= 479001600) as B by (apply (zfact_le n 12); lia).
  unfold sn_size. split; [apply zfact32_ok; lia|]. split; [|split].
  - intros e He. unfold sn_element32, sn_element. rewrite sn_digits32_ok by lia. reflexivity.
  - intros s Hs. unfold sn_index32, sn_index. apply sn_index_rec32_ok; [lia|].
    replace (Z.of_nat (S (Z.to_nat (n - 1)))) with n by lia. auto.
  - intros m e k Hm Hk He. unfold snsm_element32, snsm_element. rewrite zfact32_ok by lia.
    destruct (snsm_size_ok n m ltac:(lia)) as (k' & E & K). rewrite Hk in E. injection E as <-.
    pose proof (zfact_pos m).
    assert (0 <= e * zfact m < zfact n) by nia. cbn [bind]. rewrite i32_ok by lia. cbn [bind].
    rewrite sn_digits32_ok by lia. reflexivity.
Qed.

(* ---- C10, C11 ---- *)

Lemma snsm_round_trip n m : 1 <= m <= n ->
  exists k, snsm_size n m = Ret k /\ k * zfact m = zfact n /\
   (forall i, 0 <= i < k -> exists s, snsm_element n m i = Ret s /\ is_perm n s /\ snsm_index n m s = Ret i) /\
   (forall s, is_perm n s -> exists i, snsm_index n m s = Ret i /\ 0 <= i < k).
Proof.
  intros Hm. destruct (snsm_size_ok n m ltac:(lia)) as (k & E & K). exists k. split; [auto|]. split; [auto|].
  pose proof (zfact_pos m). split.
  - intros i Hi. exists (elt (Z.to_nat n) (i * zfact m)).
    assert (0 <= i * zfact m < zfact n) by nia.
    rewrite snsm_element_ok by lia. split; [reflexivity|].
    pose proof (is_perm_elt (Z.to_nat n) (i * zfact m)) as P. replace (Z.of_nat (Z.to_nat n)) with n in P by lia.
    split; [exact P|]. rewrite snsm_index_ok by (auto; lia). rewrite idn_elt by assumption.
    rewrite Z.div_mul by lia. reflexivity.
  - intros s Hs. exists (idn (Z.to_nat n) s / zfact m). rewrite snsm_index_ok by (auto; lia). split; [reflexivity|].
    pose proof (idn_bound (Z.to_nat n) s) as B. replace (Z.of_nat (Z.to_nat n)) with n in B by lia. specialize (B Hs).
    fold (zfact n) in B. split; [apply Z.div_pos; lia|]. apply Z.div_lt_upper_bound; lia.
Qed.

Lemma snsm_refines_sn n m s i : 1 <= m <= n -> is_perm n s -> sn_index n s = Ret i ->
  snsm_index n m s = Ret (i / zfact m).
Proof.
  intros Hm Hs. rewrite sn_index_ok by (auto; lia). intros E. injection E as <-. apply snsm_index_ok; auto; lia.
Qed.

Lemma snsm_right_cosets n m s t : 1 <= m <= n -> is_perm n s -> is_perm n t ->
  (snsm_index n m s = snsm_index n m t <->
   exists r, is_perm n r /\ (forall k, m < k <= n -> img r k = k) /\ p_mul r s = Ret t).
Proof.
  intros Hm Hs Ht. rewrite !snsm_index_ok by (auto; lia).
  pose proof (idn_div_positions (Z.to_nat (n - m)) n s t ltac:(lia) Hs Ht) as D.
  replace (n - Z.of_nat (Z.to_nat (n - m))) with m in D by lia.
  pose proof (coset_positions n m s t ltac:(lia) Hs Ht) as C.
  split.
  - intros E. apply Ret_inj in E. pose proof (proj1 D E) as E0. clear E. rename E0 into E. destruct C as (_ & C).
    destruct C as (r & Hr & Hf & Hp); [intros; apply E; lia|].
    exists r. split; [auto|]. split; [auto|]. rewrite (p_mul_perm n) by auto. congruence.
  - intros (r & Hr & Hf & Hp). f_equal. apply D. intros v Hv. apply (proj1 C); [|lia|lia].
    exists r. split; [auto|]. split; [auto|]. rewrite (p_mul_perm n) in Hp by auto. congruence.
Qed.

Lemma snsm_left_cosets_fail : exists n m s t r, 1 <= m <= n /\ is_perm n s /\ is_perm n t /\ is_perm n r /\
  (forall k, m < k <= n -> img r k = k) /\ p_mul s r = Ret t /\ snsm_index n m s <> snsm_index n m t.
Proof.
  exists 3, 2, [1;3;2], [3;1;2], [2;1;3]. repeat (split; [lia|]).
  split; [apply (check_is_perm [1;3;2]); reflexivity|]. split; [apply (check_is_perm [3;1;2]); reflexivity|].
  split; [apply (check_is_perm [2;1;3]); reflexivity|].
  split; [intros k Hk; replace k with 3 by lia; reflexivity|]. split; [reflexivity|].
  vm_compute. discriminate.
Qed.

Lemma sn_size_fact n : 0 <= n -> sn_size n = Z.of_nat (fact (Z.to_nat n)).
Proof.
  intros _. unfold sn_size, zfact. induction (Z.to_nat n) as [|k IH]; [reflexivity|].
  cbn [zfactn]. rewrite IH. change (fact (S k)) with (S k * fact k)%nat. lia.
Qed.
