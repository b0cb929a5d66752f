(* Enumeration of Sn: element and index. *)
From Coq Require Import ZArith List Bool Lia ZifyBool ZifyNat.
From Verif Require Import Model_Base Model_Perm Model_Sn Spec_Perm Proof_Base Proof_Perm.
Import ListNotations.
Open Scope Z_scope.

(* ---- factorials ---- *)

Lemma zfactn_pos k : 0 < zfactn k.
Proof. induction k as [|k IH]; cbn [zfactn]; [lia|]. nia. Qed.

Lemma zfact_pos n : 0 < zfact n.
Proof. apply zfactn_pos. Qed.

Lemma zfact_0 : zfact 0 = 1.
Proof. reflexivity. Qed.

Lemma zfact_step n : 1 <= n -> zfact n = n * zfact (n - 1).
Proof.
  intros H. unfold zfact. replace (Z.to_nat n) with (S (Z.to_nat (n - 1))) by lia.
  cbn [zfactn]. rewrite Z.mul_comm. f_equal. lia.
Qed.

Lemma zfact_le a b : a <= b -> zfact a <= zfact b.
Proof.
  intros H. remember (Z.to_nat (b - a)) as k eqn:Ek. revert b H Ek.
  induction k as [|k IH]; intros b H Ek; [replace b with a by lia; lia|].
  destruct (Z_le_dec b 0).
  - unfold zfact. replace (Z.to_nat a) with O by lia. replace (Z.to_nat b) with O by lia. lia.
  - rewrite (zfact_step b) by lia. pose proof (IH (b - 1) ltac:(lia) ltac:(lia)).
    pose proof (zfact_pos (b - 1)). nia.
Qed.

Lemma zfact_divide a b : 0 <= a <= b -> (zfact a | zfact b).
Proof.
  intros H. remember (Z.to_nat (b - a)) as k eqn:Ek. revert b H Ek.
  induction k as [|k IH]; intros b H Ek; [replace b with a by lia; apply Z.divide_refl|].
  rewrite (zfact_step b) by lia. apply Z.divide_mul_r. apply IH; lia.
Qed.

(* ---- insertion and deletion ---- *)

Definition zins (j x : Z) (l : list Z) : list Z := firstn (Z.to_nat j) l ++ x :: skipn (Z.to_nat j) l.
Definition zdel (j : Z) (l : list Z) : list Z := firstn (Z.to_nat j) l ++ skipn (S (Z.to_nat j)) l.

Lemma zlen_zins j x l : zlen (zins j x l) = zlen l + 1.
Proof.
  unfold zins. rewrite zlen_app, zlen_cons.
  assert (zlen l = zlen (firstn (Z.to_nat j) l) + zlen (skipn (Z.to_nat j) l)) as E; [|lia].
  rewrite <- zlen_app, firstn_skipn. reflexivity.
Qed.

Lemma zlen_firstn {A} j (l : list A) : 0 <= j <= zlen l -> zlen (firstn (Z.to_nat j) l) = j.
Proof. unfold zlen. intros H. rewrite firstn_length. lia. Qed.

Lemma zlen_skipn {A} j (l : list A) : 0 <= j <= zlen l -> zlen (skipn (Z.to_nat j) l) = zlen l - j.
Proof. unfold zlen. intros H. rewrite skipn_length. lia. Qed.

Lemma znth_firstn {A} j (l : list A) i d : 0 <= i < j -> znth (firstn (Z.to_nat j) l) i d = znth l i d.
Proof.
  intros H. unfold znth. assert (Z.to_nat i < Z.to_nat j)%nat as K by lia. revert K.
  generalize (Z.to_nat i) (Z.to_nat j). clear. intros i j. revert i l.
  induction j as [|j IH]; intros i l H; [lia|]. destruct l; simpl; [destruct i; reflexivity|].
  destruct i; simpl; [reflexivity|]. apply IH. lia.
Qed.

Lemma znth_skipn {A} j (l : list A) i d : 0 <= i -> 0 <= j -> znth (skipn (Z.to_nat j) l) i d = znth l (i + j) d.
Proof.
  intros Hi Hj. unfold znth. replace (Z.to_nat (i + j)) with (Z.to_nat j + Z.to_nat i)%nat by lia.
  generalize (Z.to_nat i) (Z.to_nat j). clear. intros i j. revert i l.
  induction j as [|j IH]; intros i l; [reflexivity|]. destruct l; simpl; [destruct i; reflexivity|apply IH].
Qed.

Lemma znth_zins j x l i d : 0 <= j <= zlen l -> 0 <= i ->
  znth (zins j x l) i d = if i <? j then znth l i d else if i =? j then x else znth l (i - 1) d.
Proof.
  intros Hj Hi. unfold zins. rewrite znth_app by lia. rewrite zlen_firstn by lia.
  destruct (Z.ltb_spec i j); [apply znth_firstn; lia|].
  rewrite znth_cons by lia. destruct (Z.eqb_spec (i - j) 0), (Z.eqb_spec i j); try lia; auto.
  rewrite znth_skipn by lia. f_equal; lia.
Qed.

Lemma zlen_zdel j l : 0 <= j < zlen l -> zlen (zdel j l) = zlen l - 1.
Proof.
  intros H. unfold zdel. rewrite zlen_app, zlen_firstn by lia.
  replace (S (Z.to_nat j)) with (Z.to_nat (j + 1)) by lia. rewrite zlen_skipn by lia. lia.
Qed.

Lemma znth_zdel j l i d : 0 <= j < zlen l -> 0 <= i ->
  znth (zdel j l) i d = if i <? j then znth l i d else znth l (i + 1) d.
Proof.
  intros Hj Hi. unfold zdel. rewrite znth_app by lia. rewrite zlen_firstn by lia.
  destruct (Z.ltb_spec i j); [apply znth_firstn; lia|].
  replace (S (Z.to_nat j)) with (Z.to_nat (j + 1)) by lia.
  rewrite znth_skipn by lia. f_equal; lia.
Qed.

Lemma zdel_zins j x l : 0 <= j <= zlen l -> zdel j (zins j x l) = l.
Proof.
  intros H. apply list_ext with (d := 0).
  - rewrite zlen_zdel; rewrite zlen_zins; lia.
  - intros i Hi. rewrite zlen_zdel, zlen_zins in Hi by (rewrite zlen_zins; lia).
    rewrite znth_zdel by (rewrite ?zlen_zins; lia). rewrite !znth_zins by lia.
    destruct (Z.ltb_spec i j); [destruct (Z.ltb_spec i j); [reflexivity|lia]|].
    destruct (Z.ltb_spec (i + 1) j); [lia|]. destruct (Z.eqb_spec (i + 1) j); [lia|]. f_equal; lia.
Qed.

Lemma zins_zdel j l : 0 <= j < zlen l -> zins j (znth l j 0) (zdel j l) = l.
Proof.
  intros H. apply list_ext with (d := 0).
  - rewrite zlen_zins, zlen_zdel; lia.
  - intros i Hi. rewrite zlen_zins, zlen_zdel in Hi by lia.
    rewrite znth_zins by (rewrite ?zlen_zdel; lia).
    destruct (Z.ltb_spec i j).
    { rewrite znth_zdel by lia. destruct (Z.ltb_spec i j); [reflexivity|lia]. }
    destruct (Z.eqb_spec i j); [congruence|]. rewrite znth_zdel by lia.
    destruct (Z.ltb_spec (i - 1) j); [lia|]. f_equal; lia.
Qed.

Lemma In_zins j x l v : In v (zins j x l) <-> v = x \/ In v l.
Proof.
  unfold zins. rewrite in_app_iff. simpl.
  rewrite <- (firstn_skipn (Z.to_nat j) l) at 3. rewrite in_app_iff. intuition congruence.
Qed.

Lemma NoDup_zins j x l : NoDup (zins j x l) <-> ~ In x l /\ NoDup l.
Proof.
  unfold zins. split.
  - intros H. pose proof (NoDup_remove_1 _ _ _ H) as H1. pose proof (NoDup_remove_2 _ _ _ H) as H2.
    rewrite firstn_skipn in *. auto.
  - intros (H1 & H2). apply NoDup_Add with (a := x) (l := l); auto.
    rewrite <- (firstn_skipn (Z.to_nat j) l) at 1. apply Add_app.
Qed.

Lemma is_perm_zins n j l : is_perm n l -> is_perm (n + 1) (zins j (n + 1) l).
Proof.
  intros (HL & HR & HN). split; [|split].
  - change (zlen (zins j (n + 1) l) = n + 1). rewrite zlen_zins. unfold zlen. lia.
  - intros v Hv. apply In_zins in Hv. destruct Hv as [->|Hv]; [lia|]. apply HR in Hv. lia.
  - apply NoDup_zins. split; auto. intros Hv. apply HR in Hv. lia.
Qed.

Lemma is_perm_zdel n l : 1 <= n -> is_perm n l -> is_perm (n - 1) (zdel (idx n l) l).
Proof.
  intros Hn Hl. pose proof (is_perm_len _ _ Hl) as HLen.
  destruct (idx_In n l) as (B & E); [eapply is_perm_onto; eauto; lia|].
  rewrite HLen in B.
  destruct Hl as (HL & HR & HN).
  rewrite <- (zins_zdel (idx n l) l) in HN by lia. rewrite E in HN.
  apply NoDup_zins in HN. destruct HN as (HN1 & HN2). split; [|split]; auto.
  - change (zlen (zdel (idx n l) l) = n - 1). rewrite zlen_zdel by lia. lia.
  - intros v Hv. assert (v <> n) by congruence.
    assert (In v l); [|apply HR in H0; lia].
    rewrite <- (zins_zdel (idx n l) l) by lia. apply In_zins. auto.
Qed.

Lemma idx_zins j x l : ~ In x l -> 0 <= j <= zlen l -> idx x (zins j x l) = j.
Proof.
  intros Hx Hj.
  destruct (idx_In x (zins j x l)) as (B & E); [apply In_zins; auto|].
  rewrite zlen_zins in B. rewrite znth_zins in E by lia.
  destruct (Z.ltb_spec (idx x (zins j x l)) j).
  - exfalso. apply Hx. rewrite <- E. apply znth_In. lia.
  - destruct (Z.eqb_spec (idx x (zins j x l)) j); auto.
    exfalso. apply Hx. rewrite <- E. apply znth_In. lia.
Qed.

(* ---- pure element and index ---- *)

Fixpoint elt (k : nat) (e : Z) : list Z :=
  match k with
  | O => []
  | S k' => zins (Z.of_nat k' - e / zfactn k') (Z.of_nat k) (elt k' (e mod zfactn k'))
  end.

Fixpoint idn (k : nat) (l : list Z) : Z :=
  match k with
  | O => 0
  | S k' => idn k' (zdel (idx (Z.of_nat k) l) l) + (Z.of_nat k' - idx (Z.of_nat k) l) * zfactn k'
  end.

Lemma zlen_elt k e : zlen (elt k e) = Z.of_nat k.
Proof. revert e; induction k as [|k IH]; intros e; cbn [elt]; [reflexivity|]. rewrite zlen_zins, IH. lia. Qed.

Lemma is_perm_elt k e : is_perm (Z.of_nat k) (elt k e).
Proof.
  revert e; induction k as [|k IH]; intros e; cbn [elt].
  - repeat split; try constructor; destruct H.
  - replace (Z.of_nat (S k)) with (Z.of_nat k + 1) by lia. apply is_perm_zins. auto.
Qed.

Lemma digit_bound k e : 0 <= e < zfactn (S k) -> 0 <= e / zfactn k <= Z.of_nat k.
Proof.
  intros H. pose proof (zfactn_pos k). cbn [zfactn] in H. split; [apply Z.div_pos; lia|].
  assert (e / zfactn k < Z.of_nat (S k)); [|lia]. apply Z.div_lt_upper_bound; lia.
Qed.

Lemma idn_elt k e : 0 <= e < zfactn k -> idn k (elt k e) = e.
Proof.
  revert e; induction k as [|k IH]; intros e H.
  - cbn in *. lia.
  - pose proof (digit_bound k e H) as B. pose proof (zfactn_pos k) as P.
    cbn [elt idn].
    assert (~ In (Z.of_nat (S k)) (elt k (e mod zfactn k))) as N.
    { intros K. pose proof (is_perm_elt k (e mod zfactn k)) as (_ & R & _). apply R in K. lia. }
    rewrite idx_zins by (auto; rewrite zlen_elt; lia).
    rewrite zdel_zins by (rewrite zlen_elt; lia).
    rewrite IH by (apply Z.mod_pos_bound; lia).
    pose proof (Z.div_mod e (zfactn k) ltac:(lia)) as D. set (q := e / zfactn k) in *. lia.
Qed.

Lemma idn_bound k l : is_perm (Z.of_nat k) l -> 0 <= idn k l < zfactn k.
Proof.
  revert l; induction k as [|k IH]; intros l H; [cbn; lia|].
  cbn [idn]. pose proof (zfactn_pos k).
  pose proof (is_perm_zdel (Z.of_nat (S k)) l ltac:(lia) H) as H'. replace (Z.of_nat (S k) - 1) with (Z.of_nat k) in H' by lia.
  specialize (IH _ H').
  destruct (idx_In (Z.of_nat (S k)) l) as (B & _); [eapply is_perm_onto; eauto; lia|].
  rewrite (is_perm_len _ _ H) in B.
  set (a := idn k _) in *. set (q := idx _ l) in *. cbn [zfactn]. nia.
Qed.

Lemma elt_idn k l : is_perm (Z.of_nat k) l -> elt k (idn k l) = l.
Proof.
  revert l; induction k as [|k IH]; intros l H.
  - cbn. symmetry. apply zlen_0_nil. apply is_perm_len in H. lia.
  - cbn [idn elt]. pose proof (zfactn_pos k).
    pose proof (is_perm_zdel (Z.of_nat (S k)) l ltac:(lia) H) as H'.
    replace (Z.of_nat (S k) - 1) with (Z.of_nat k) in H' by lia.
    pose proof (idn_bound k _ H') as Bd. specialize (IH _ H').
    destruct (idx_In (Z.of_nat (S k)) l) as (B & E); [eapply is_perm_onto; eauto; lia|].
    rewrite Z.div_add, Z.div_small, Z.mod_add, Z.mod_small by lia.
    rewrite IH.
    replace (Z.of_nat k - (0 + (Z.of_nat k - idx (Z.of_nat (S k)) l))) with (idx (Z.of_nat (S k)) l) by lia.
    rewrite <- E at 2. apply zins_zdel. lia.
Qed.

(* ---- refinement: element ---- *)

Lemma cdiv_ok a b : 0 <= a -> 0 < b -> cdiv a b = Ret (a / b).
Proof. intros H1 H2. unfold cdiv. destruct (Z.eqb_spec b 0); [lia|]. rewrite Z.quot_div_nonneg by lia. reflexivity. Qed.

Lemma cmod_ok a b : 0 <= a -> 0 < b -> cmod a b = Ret (a mod b).
Proof. intros H1 H2. unfold cmod. destruct (Z.eqb_spec b 0); [lia|]. rewrite Z.rem_mod_nonneg by lia. reflexivity. Qed.

Lemma mod_mod_fact e i : 1 <= i -> (e mod zfact i) mod zfact (i - 1) = e mod zfact (i - 1).
Proof.
  intros H. pose proof (zfact_pos i). pose proof (zfact_pos (i - 1)).
  symmetry. apply Znumtheory.Zmod_div_mod; auto. apply zfact_divide; lia.
Qed.

(* the digit vector: s[i-1] = i - (e mod i!)/(i-1)! for m < i <= n *)
Lemma sn_digits_ok n m e : 0 <= m <= n -> 0 <= e < zfact n ->
  exists s, sn_digits n m e = Ret s /\ zlen s = n /\
    forall i, m < i <= n -> znth s (i - 1) 0 = i - (e mod zfact i) / zfact (i - 1).
Proof.
  intros Hm He. unfold sn_digits.
  destruct (zford_inv (fun i (st : list Z * Z) => zlen (fst st) = n /\ snd st = e mod zfact i /\
      forall k, i < k <= n -> znth (fst st) (k - 1) 0 = k - (e mod zfact k) / zfact (k - 1))
     (m + 1) n (fun i st =>
            let '(s, e) := st in
            q <- cdiv e (zfact (i - 1)) ;;
            s' <- wr s (i - 1) (i - q) ;;
            e' <- cmod e (zfact (i - 1)) ;;
            Ret (s', e')) (repeat 0 (Z.to_nat n), e)) as ((s & e') & E & H1 & H2 & H3).
  - lia.
  - cbn. rewrite zlen_repeat. split; [lia|]. split; [rewrite Z.mod_small; lia|]. intros; lia.
  - intros i (s & e0) Hi (H1 & H2 & H3). cbn [fst snd] in *.
    pose proof (zfact_pos i). pose proof (zfact_pos (i - 1)).
    assert (0 <= e0) by (subst e0; apply Z.mod_pos_bound; lia).
    rewrite cdiv_ok by lia. cbn [bind]. rewrite wr_ok by lia. cbn [bind].
    rewrite cmod_ok by lia. cbn [bind]. eexists; split; [reflexivity|]. cbn [fst snd].
    split; [rewrite zlen_zupd; lia|]. split; [subst e0; apply mod_mod_fact; lia|].
    intros k Hk. rewrite znth_zupd by lia. destruct (Z.eqb_spec (k - 1) (i - 1)).
    + replace k with i by lia. congruence.
    + apply H3. lia.
  - rewrite E. cbn [bind fst] in *. exists s. split; [reflexivity|]. split; [assumption|].
    intros i Hi. apply H3. lia.
Qed.

(* one insertion on an array whose first i-1 cells are q *)
Lemma sn_insert_ok s i q r t : zlen q = i - 1 -> 1 <= i -> i <= zlen s ->
  znth s (i - 1) 0 = t -> 1 <= t <= i ->
  sn_insert s i (q ++ i :: r) = Ret (zins (t - 1) i q ++ r).
Proof.
  intros Hq Hi Hs Ht Hb. unfold sn_insert. rewrite (rd_ok s (i - 1) 0) by lia. cbn [bind]. rewrite Ht.
  set (p := q ++ i :: r). pose proof (zlen_nonneg r).
  assert (zlen p = i + zlen r) as HLp by (unfold p; rewrite zlen_app, zlen_cons; lia).
  destruct (zford_inv (fun k p' => zlen p' = zlen p /\
      forall j, 0 <= j < zlen p -> znth p' j 0 = if (k <=? j) && (j <=? i - 1) then znth p (j - 1) 0 else znth p j 0)
      (t + 1) i (fun k p => v <- rd p (k - 2) ;; wr p (k - 1) v) p) as (p' & E & H1 & H2).
  - lia.
  - split; [reflexivity|]. intros j Hj. destruct (Z.leb_spec i j), (Z.leb_spec j (i - 1)); cbn [andb]; auto; lia.
  - intros k p0 Hk (H1 & H2). rewrite (rd_ok p0 (k - 2) 0) by lia. cbn [bind]. rewrite wr_ok by lia.
    eexists; split; [reflexivity|]. split; [rewrite zlen_zupd; lia|].
    intros j Hj. rewrite znth_zupd by lia. rewrite !H2 by lia.
    destruct (Z.eqb_spec j (k - 1)).
    + subst j. destruct (Z.leb_spec k (k - 2)), (Z.leb_spec (k - 1) (k - 1)), (Z.leb_spec (k - 1) (i - 1));
        cbn [andb]; try lia. f_equal; lia.
    + destruct (Z.leb_spec k j), (Z.leb_spec (k - 1) j), (Z.leb_spec j (i - 1)); cbn [andb]; try lia; auto.
  - rewrite E. cbn [bind]. rewrite wr_ok by lia. f_equal.
    apply list_ext with (d := 0).
    + rewrite zlen_zupd by lia. rewrite zlen_app, zlen_zins. lia.
    + intros j Hj. rewrite zlen_zupd in Hj by lia. rewrite znth_zupd by lia. rewrite H2 by lia.
      rewrite (znth_app (zins _ _ _)) by lia. rewrite zlen_zins. rewrite znth_zins by lia.
      destruct (Z.eqb_spec j (t - 1)).
      { destruct (Z.ltb_spec j (zlen q + 1)); [|lia]. destruct (Z.ltb_spec j (t - 1)); [lia|].
        reflexivity. }
      replace (t + 1 - 1) with t by lia.
      destruct (Z.leb_spec t j), (Z.leb_spec j (i - 1)); cbn [andb].
      * unfold p; rewrite (znth_app q) by lia. destruct (Z.ltb_spec (j - 1) (zlen q)); [|lia]. destruct (Z.ltb_spec j (zlen q + 1)); [|lia].
        destruct (Z.ltb_spec j (t - 1)); [lia|]. reflexivity.
      * unfold p; rewrite (znth_app q) by lia. destruct (Z.ltb_spec j (zlen q)); [lia|]. destruct (Z.ltb_spec j (zlen q + 1)); [lia|].
        rewrite znth_cons by lia. destruct (Z.eqb_spec (j - zlen q) 0); [lia|]. f_equal; lia.
      * unfold p; rewrite (znth_app q) by lia. destruct (Z.ltb_spec j (zlen q)); [|lia]. destruct (Z.ltb_spec j (zlen q + 1)); [|lia].
        destruct (Z.ltb_spec j (t - 1)); [|lia]. reflexivity.
      * lia.
Qed.

Lemma pid_zrange n : pid n = zrange 1 (n + 1).
Proof.
  unfold pid, ztab, zrange. rewrite map_map. replace (n + 1 - 1) with (n - 0) by lia.
  apply map_ext; intros; lia.
Qed.

Lemma elt_0 k : elt k 0 = zrange 1 (Z.of_nat k + 1).
Proof.
  induction k as [|k IH]; [reflexivity|]. cbn [elt]. pose proof (zfactn_pos k).
  rewrite Z.mod_0_l, Z.div_0_l, IH by lia.
  unfold zins. replace (Z.to_nat (Z.of_nat k - 0)) with (length (zrange 1 (Z.of_nat k + 1)))
    by (rewrite zrange_length; lia).
  rewrite firstn_all, skipn_all.
  replace (Z.of_nat (S k)) with (Z.of_nat k + 1) by lia. rewrite (zrange_snoc 1 (Z.of_nat k + 1)) by lia. reflexivity.
Qed.

(* shared insertion loop of SnObj::element (m=1) and SnOverSmObj::element *)
Lemma insert_loop n m e s : 0 <= m <= n -> 0 <= e < zfact n -> zlen s = n ->
  (forall i, m < i <= n -> znth s (i - 1) 0 = i - (e mod zfact i) / zfact (i - 1)) ->
  e mod zfact m = 0 ->
  zfor (m + 1) (n + 1) (fun i p => sn_insert s i p) (pid n) = Ret (elt (Z.to_nat n) e).
Proof.
  intros Hm He Hs Hd Hz.
  destruct (zfor_inv (fun i p => p = elt (Z.to_nat (i - 1)) (e mod zfact (i - 1)) ++ zrange i (n + 1))
     (m + 1) (n + 1) (fun i p => sn_insert s i p) (pid n)) as (p & E & ->).
  - lia.
  - replace (m + 1 - 1) with m by lia. rewrite Hz, elt_0, pid_zrange.
    rewrite (zrange_app 1 (m + 1) (n + 1)) by lia. f_equal. f_equal. lia.
  - intros i p Hi ->. rewrite (zrange_cons i) by lia.
    pose proof (zfact_pos i). pose proof (zfact_pos (i - 1)).
    assert (0 <= (e mod zfact i) / zfact (i - 1) <= i - 1) as B.
    { pose proof (digit_bound (Z.to_nat (i - 1)) (e mod zfact i)) as D.
      replace (S (Z.to_nat (i - 1))) with (Z.to_nat i) in D by lia. fold (zfact i) (zfact (i - 1)) in D.
      pose proof (Z.mod_pos_bound e (zfact i)). specialize (D ltac:(lia)). lia. }
    rewrite sn_insert_ok with (t := i - (e mod zfact i) / zfact (i - 1)).
    + eexists; split; [reflexivity|]. f_equal.
      replace (Z.to_nat (i + 1 - 1)) with (S (Z.to_nat (i - 1))) by lia.
      replace (i + 1 - 1) with i by lia. cbn [elt]. fold (zfact (i - 1)).
      rewrite mod_mod_fact by lia. f_equal; lia.
    + rewrite zlen_elt; lia.
    + lia.
    + lia.
    + apply Hd; lia.
    + lia.
  - refine (eq_trans E _). f_equal. rewrite zrange_nil by lia. rewrite app_nil_r.
    replace (n + 1 - 1) with n by lia. rewrite Z.mod_small by lia. reflexivity.
Qed.

Lemma sn_element_ok n e : 1 <= n -> 0 <= e < zfact n -> sn_element n e = Ret (elt (Z.to_nat n) e).
Proof.
  intros Hn He. unfold sn_element. rewrite p_identity_ok by lia. cbn [bind].
  destruct (sn_digits_ok n 0 e) as (s & E & HL & HD); [lia|lia|]. rewrite E. cbn [bind].
  apply (insert_loop n 1 e s); auto; try lia.
  - intros i Hi. apply HD. lia.
  - apply Z.mod_1_r.
Qed.

(* ---- refinement: index ---- *)

(* first loop of SnObj::index *)
Lemma index_copy_loop n sigma tau0 : 1 <= n -> zlen sigma = n -> In n sigma -> zlen tau0 = n - 1 ->
  exists tau, zforb 0 n
             (fun i tau =>
                v <- rd sigma i ;;
                if v =? n then Ret (inr (i, tau))
                else t <- wr tau i (Some v) ;; Ret (inl t)) tau0 = Ret (inr (idx n sigma, tau)) /\
    zlen tau = n - 1 /\ forall i, 0 <= i < idx n sigma -> znth tau i None = Some (znth sigma i 0).
Proof.
  intros Hn HL HI HT. destruct (idx_In n sigma HI) as (B & E).
  set (body := fun i tau => _).
  assert (forall k tau, 0 <= k <= idx n sigma -> zlen tau = n - 1 ->
     (forall i, 0 <= i < k -> znth tau i None = Some (znth sigma i 0)) ->
     exists tau', zforb k n body tau = Ret (inr (idx n sigma, tau')) /\ zlen tau' = n - 1 /\
       forall i, 0 <= i < idx n sigma -> znth tau' i None = Some (znth sigma i 0)) as G.
  { intros k. remember (Z.to_nat (idx n sigma - k)) as w eqn:Ew. revert k Ew.
    induction w as [|w IH]; intros k Ew tau Hk HTl HF; rewrite zforb_cons by lia; unfold body at 1;
      rewrite (rd_ok sigma k 0) by lia; cbn [bind].
    - replace k with (idx n sigma) in * by lia. rewrite E, Z.eqb_refl. exists tau. auto.
    - destruct (Z.eqb_spec (znth sigma k 0) n) as [En|Nn].
      { exfalso. assert (idx n sigma <= k); [|lia]. clear - En Hk HL B.
        assert (0 <= k < zlen sigma) as Hk' by lia. clear Hk HL B. revert k En Hk'. 
        induction sigma as [|x l IHl]; intros k En Hk'; [unfold zlen in Hk'; cbn in Hk'; lia|].
        simpl idx. destruct (Z.eqb_spec x n); [lia|]. rewrite zlen_cons in Hk'.
        rewrite znth_cons in En by lia. destruct (Z.eqb_spec k 0); [contradiction|].
        specialize (IHl (k - 1) En). lia. }
      rewrite wr_ok by lia. cbn [bind]. apply IH; try lia.
      + rewrite zlen_zupd; lia.
      + intros i Hi. rewrite znth_zupd by lia. destruct (Z.eqb_spec i k); [congruence|]. apply HF; lia. }
  apply G; auto; try lia.
Qed.

Lemma sn_index_rec_ok k sigma : is_perm (Z.of_nat (S k)) sigma ->
  sn_index_rec k sigma = Ret (idn (S k) sigma).
Proof.
  revert sigma; induction k as [|k IH]; intros sigma H.
  - cbn [sn_index_rec idn]. f_equal.
    destruct (idx_In 1 sigma) as (B & _); [eapply is_perm_onto; eauto; lia|].
    rewrite (is_perm_len _ _ H) in B. change (Z.of_nat 1) with 1 in *. cbn [zfactn]. lia.
  - cbn [sn_index_rec]. set (n := Z.of_nat (S k) + 1).
    replace (Z.of_nat (S (S k))) with n in * by lia.
    pose proof (is_perm_len _ _ H) as HL. rewrite HL, Z.eqb_refl. cbn [assert_ bind].
    rewrite alloc_ok by lia. cbn [bind].
    assert (In n sigma) as HI by (eapply is_perm_onto; eauto; lia).
    destruct (idx_In n sigma HI) as (B & E).
    destruct (index_copy_loop n sigma (repeat None (Z.to_nat (n - 1)))) as (tau & E1 & L1 & F1);
      auto; try lia; [rewrite zlen_repeat; lia|].
    rewrite E1. cbn [bind].
    destruct (zfor_inv (fun i t => zlen t = n - 1 /\
       (forall j, 0 <= j < idx n sigma -> znth t j None = Some (znth sigma j 0)) /\
       (forall j, idx n sigma <= j < i - 1 -> znth t j None = Some (znth sigma (j + 1) 0)))
       (idx n sigma + 1) n (fun i tau => v <- rd sigma i ;; wr tau (i - 1) (Some v)) tau)
      as (tau2 & E2 & L2 & F2 & G2).
    + lia.
    + split; [auto|]. split; [auto|]. intros; lia.
    + intros i t Hi (K1 & K2 & K3). rewrite (rd_ok sigma i 0) by lia. cbn [bind]. rewrite wr_ok by lia.
      eexists; split; [reflexivity|]. split; [rewrite zlen_zupd; lia|]. split.
      * intros j Hj. rewrite znth_zupd by lia. destruct (Z.eqb_spec j (i - 1)); [lia|]. apply K2; lia.
      * intros j Hj. rewrite znth_zupd by lia. destruct (Z.eqb_spec j (i - 1)).
        -- f_equal. f_equal. lia.
        -- apply K3; lia.
    + rewrite E2. cbn [bind].
      rewrite (freeze_ok tau2 (zdel (idx n sigma) sigma) 0).
      * cbn [bind]. rewrite IH.
        -- cbn [bind]. f_equal. change (idn (S (S k)) sigma) with
             (idn (S k) (zdel (idx (Z.of_nat (S (S k))) sigma) sigma)
              + (Z.of_nat (S k) - idx (Z.of_nat (S (S k))) sigma) * zfactn (S k)).
           replace (Z.of_nat (S (S k))) with n by lia. f_equal.
           unfold zfact. replace (Z.to_nat (n - 1)) with (S k) by lia. f_equal. lia.
        -- replace (Z.of_nat (S k)) with (n - 1) by lia. apply is_perm_zdel; auto. lia.
      * rewrite zlen_zdel; lia.
      * intros i Hi. rewrite zlen_zdel in Hi by lia. rewrite znth_zdel by lia.
        destruct (Z.ltb_spec i (idx n sigma)); [apply F2; lia|apply G2; lia].
Qed.

Lemma sn_index_ok n sigma : 1 <= n -> is_perm n sigma -> sn_index n sigma = Ret (idn (Z.to_nat n) sigma).
Proof.
  intros Hn H. unfold sn_index. rewrite sn_index_rec_ok.
  - f_equal. f_equal. lia.
  - replace (Z.of_nat (S (Z.to_nat (n - 1)))) with n by lia. auto.
Qed.
