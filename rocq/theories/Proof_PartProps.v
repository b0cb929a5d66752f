(* Partition order, listing, parents, contents. *)
From Coq Require Import ZArith List Bool Lia ZifyBool ZifyNat Sorted.
From Verif Require Import Model_Base Model_Sn Model_Part Model_Comb Spec_Part Proof_Base Proof_Sn Proof_Part.
Import ListNotations.
Open Scope Z_scope.

Lemma ppos_row_pos l i : ppos l -> 0 <= i < zlen l -> 0 < row l i.
Proof. intros H Hi. pose proof (ppos_row l i H Hi). lia. Qed.

(* ---- lexicographic order ---- *)

Lemma lex_irrefl a : ~ lex_greater a a.
Proof. intros (i & _ & H & _). lia. Qed.

Lemma lex_trans a b c : lex_greater a b -> lex_greater b c -> lex_greater a c.
Proof.
  intros (i & Hi & H1 & H2) (j & Hj & H3 & H4).
  destruct (Z.lt_total i j) as [K|[K|K]].
  - exists i. split; [auto|]. split; [rewrite <- H4 by lia; lia|]. intros k Hk. rewrite H2, H4 by lia. reflexivity.
  - subst j. exists i. split; [auto|]. split; [lia|]. intros k Hk. rewrite H2, H4 by lia. reflexivity.
  - exists j. split; [auto|]. split; [rewrite H2 by lia; lia|]. intros k Hk. rewrite H2, H4 by lia. reflexivity.
Qed.

Lemma lex_cons x a y b : lex_greater (x :: a) (y :: b) <-> x > y \/ (x = y /\ lex_greater a b).
Proof.
  split.
  - intros (i & Hi & H1 & H2). rewrite !row_cons in H1 by lia. destruct (Z.eqb_spec i 0) as [->|Ne]; [left; lia|].
    right. split.
    + specialize (H2 0 ltac:(lia)). exact H2.
    + exists (i - 1). split; [lia|]. split; [lia|]. intros j Hj. specialize (H2 (j + 1) ltac:(lia)).
      rewrite !row_cons in H2 by lia. destruct (Z.eqb_spec (j + 1) 0); [lia|].
      replace (j + 1 - 1) with j in H2 by lia. exact H2.
  - intros [H|(-> & i & Hi & H1 & H2)].
    + exists 0. split; [lia|]. split; [cbn; lia|]. intros; lia.
    + exists (i + 1). split; [lia|]. split.
      * rewrite !row_cons by lia. destruct (Z.eqb_spec (i + 1) 0); [lia|]. replace (i + 1 - 1) with i by lia. exact H1.
      * intros j Hj. rewrite !row_cons by lia. destruct (Z.eqb_spec j 0); [reflexivity|]. apply H2. lia.
Qed.

Lemma ppos_tl x l : ppos (x :: l) -> 1 <= x /\ ppos l.
Proof. intros H. split; [apply H; left; auto|]. intros y Hy. apply H; right; auto. Qed.

Lemma row_nil i : row [] i = 0.
Proof. unfold row. destruct (Z.to_nat i); reflexivity. Qed.

Lemma ppos_sum_pos x l : ppos (x :: l) -> 1 <= zsum (x :: l).
Proof. intros H. pose proof (ppos_zsum_len _ H) as L. rewrite zlen_cons in L. pose proof (zlen_nonneg l). lia. Qed.

Lemma lt_loop_lex a b : ppos a -> ppos b -> zsum a = zsum b -> (ip_lt_loop a b = true <-> lex_greater a b).
Proof.
  revert b; induction a as [|x a IH]; intros b Ha Hb Hs.
  - destruct b as [|y b]; [|pose proof (ppos_sum_pos _ _ Hb); change (zsum []) with 0 in Hs; lia].
    cbn. split; [discriminate|]. intros (i & _ & H & _). rewrite row_nil in H. lia.
  - destruct b as [|y b]; [pose proof (ppos_sum_pos _ _ Ha); change (zsum []) with 0 in Hs; lia|].
    rewrite lex_cons. cbn [ip_lt_loop]. rewrite Z.gtb_ltb.
    destruct (Z.ltb_spec y x); [split; auto; intros; left; lia|].
    destruct (Z.ltb_spec x y); [split; [discriminate|intros [K|(K & _)]; lia]|].
    assert (x = y) by lia. subst y. rewrite !zsum_cons in Hs.
    apply ppos_tl in Ha. apply ppos_tl in Hb. rewrite IH by (try tauto; lia). split; [auto|intros [K|(_ & K)]; [lia|auto]].
Qed.

Lemma lex_total a b : ppos a -> ppos b -> zsum a = zsum b -> lex_greater a b \/ a = b \/ lex_greater b a.
Proof.
  revert b; induction a as [|x a IH]; intros b Ha Hb Hs.
  - destruct b as [|y b]; [auto|pose proof (ppos_sum_pos _ _ Hb); change (zsum []) with 0 in Hs; lia].
  - destruct b as [|y b]; [pose proof (ppos_sum_pos _ _ Ha); change (zsum []) with 0 in Hs; lia|].
    rewrite !lex_cons. destruct (Z.lt_total x y) as [K|[K|K]]; [right; right; left; lia| |left; left; lia].
    subst y. rewrite !zsum_cons in Hs. apply ppos_tl in Ha. apply ppos_tl in Hb.
    destruct (IH b (proj2 Ha) (proj2 Hb) ltac:(lia)) as [L|[L|L]].
    + left. right. auto.
    + right; left. congruence.
    + right; right; right. auto.
Qed.

Lemma ip_lt_ok n a b : is_part n a -> is_part n b -> exists v, ip_lt a b = Ret v /\ (v = true <-> lex_greater a b).
Proof.
  intros Ha Hb. unfold ip_lt. rewrite !ip_getn_zsum, (is_part_sum _ _ Ha), (is_part_sum _ _ Hb), Z.eqb_refl.
  cbn [assert_ bind]. eexists; split; [reflexivity|]. apply lt_loop_lex; eauto.
  rewrite (is_part_sum _ _ Ha), (is_part_sum _ _ Hb). reflexivity.
Qed.

(* ---- C13 ---- *)

Lemma lt_strict_total_order n :
  (forall a, is_part n a -> ip_lt a a = Ret false) /\
  (forall a b c, is_part n a -> is_part n b -> is_part n c ->
     ip_lt a b = Ret true -> ip_lt b c = Ret true -> ip_lt a c = Ret true) /\
  (forall a b, is_part n a -> is_part n b ->
     (ip_lt a b = Ret true /\ ip_lt b a = Ret false /\ ip_eq a b = false) \/
     (ip_lt a b = Ret false /\ ip_lt b a = Ret true /\ ip_eq a b = false) \/
     (ip_lt a b = Ret false /\ ip_lt b a = Ret false /\ ip_eq a b = true /\ a = b)).
Proof.
  assert (forall a b, is_part n a -> is_part n b -> (ip_lt a b = Ret true <-> lex_greater a b)) as T.
  { intros a b Ha Hb. destruct (ip_lt_ok n a b Ha Hb) as (v & E & K). rewrite E. rewrite <- K.
    split; [intros X; injection X; auto|intros ->; auto]. }
  assert (forall a b, is_part n a -> is_part n b -> ~ lex_greater a b -> ip_lt a b = Ret false) as F.
  { intros a b Ha Hb N. destruct (ip_lt_ok n a b Ha Hb) as (v & E & K). rewrite E. destruct v; auto.
    exfalso. apply N. apply K. reflexivity. }
  assert (forall a b, ppos a -> ppos b -> ip_eq a b = true <-> a = b) as Q.
  { clear. induction a as [|x a IH]; intros b Ha Hb.
    - destruct b as [|y b]; cbn; [tauto|]. apply ppos_tl in Hb. destruct (Z.eqb_spec y 0); [lia|]. cbn.
      split; discriminate.
    - destruct b as [|y b]; cbn.
      + apply ppos_tl in Ha. destruct (Z.eqb_spec x 0); [lia|]. cbn. split; discriminate.
      + apply ppos_tl in Ha. apply ppos_tl in Hb. destruct (Z.eqb_spec x y) as [->|Ne]; cbn.
        * rewrite IH by tauto. split; congruence.
        * split; [discriminate|congruence]. }
  split; [|split].
  - intros a Ha. apply F; auto. apply lex_irrefl.
  - intros a b c Ha Hb Hc H1 H2. apply T; auto. apply (lex_trans a b c); [apply (T a b)|apply (T b c)]; auto.
  - intros a b Ha Hb.
    assert (forall c d, is_part n c -> is_part n d -> lex_greater c d ->
        ip_lt c d = Ret true /\ ip_lt d c = Ret false /\ ip_eq c d = false /\ ip_eq d c = false) as G.
    { intros c d Hc Hd L. split; [apply T; auto|]. split.
      - apply F; auto. intros L'. apply (lex_irrefl c). eapply lex_trans; eauto.
      - assert (c <> d) by (intros ->; apply (lex_irrefl d); auto).
        split; apply not_true_is_false; rewrite Q by eauto; congruence. }
    destruct (lex_total a b) as [L|[L|L]]; eauto.
    + rewrite (is_part_sum _ _ Ha), (is_part_sum _ _ Hb). reflexivity.
    + left. destruct (G a b Ha Hb L) as (G1 & G2 & G3 & G4). auto.
    + subst b. right; right. rewrite (F a a) by (auto using lex_irrefl). repeat split; auto. apply Q; eauto.
    + right; left. destruct (G b a Hb Ha L) as (G1 & G2 & G3 & G4). auto.
Qed.

Lemma lt_mixed_aborts a b : zsum a <> zsum b -> ip_lt a b = Abort.
Proof. intros H. unfold ip_lt. rewrite !ip_getn_zsum. destruct (Z.eqb_spec (zsum a) (zsum b)); [contradiction|reflexivity]. Qed.

(* ---- C14 ---- *)

Fixpoint trim (l : list Z) : list Z :=
  match l with
  | [] => []
  | x :: l' => match trim l' with [] => if x =? 0 then [] else [x] | t => x :: t end
  end.

Lemma all_zero_rows l : all_zero l = true <-> forall i, 0 <= i -> row l i = 0.
Proof.
  induction l as [|x l IH]; cbn [all_zero].
  - split; auto. intros _ i _. apply row_nil.
  - rewrite andb_true_iff, IH, Z.eqb_eq. split.
    + intros (-> & H) i Hi. rewrite row_cons by lia. destruct (i =? 0) eqn:E; [reflexivity|]. apply H. lia.
    + intros H. split; [apply (H 0); lia|]. intros i Hi. specialize (H (i + 1) ltac:(lia)). rewrite row_cons in H by lia.
      destruct (Z.eqb_spec (i + 1) 0); [lia|]. replace (i + 1 - 1) with i in H by lia. exact H.
Qed.

Lemma ip_eq_rows a b : ip_eq a b = true <-> forall i, 0 <= i -> row a i = row b i.
Proof.
  revert b; induction a as [|x a IH]; intros b.
  - change (ip_eq [] b) with (all_zero b). rewrite all_zero_rows.
    split; intros H i Hi; specialize (H i Hi); rewrite row_nil in *; lia.
  - destruct b as [|y b].
    + change (ip_eq (x :: a) []) with (all_zero (x :: a)). rewrite all_zero_rows.
      split; intros H i Hi; specialize (H i Hi); rewrite row_nil in *; lia.
    + cbn [ip_eq]. rewrite andb_true_iff, IH, Z.eqb_eq. split.
      * intros (-> & H) i Hi. rewrite !row_cons by lia. destruct (Z.eqb_spec i 0); [reflexivity|]. apply H. lia.
      * intros H. split; [apply (H 0); lia|]. intros i Hi. specialize (H (i + 1) ltac:(lia)). rewrite !row_cons in H by lia.
        destruct (Z.eqb_spec (i + 1) 0); [lia|]. replace (i + 1 - 1) with i in H by lia. exact H.
Qed.

Lemma eq_hash n a b : is_part n a -> ppos b -> ip_eq a b = true -> ip_hash a = ip_hash b.
Proof. intros Ha Hb H. f_equal. apply ppos_ext; eauto. exact (proj1 (ip_eq_rows a b) H). Qed.

Lemma eq_hash_fails : exists a b, ip_eq a b = true /\ ip_hash a <> ip_hash b.
Proof. exists [1], [1;0]. split; [reflexivity|]. vm_compute. discriminate. Qed.

(* ---- C15 ---- *)

Lemma extendable_iff n l i : is_part n l -> 0 <= i <= zlen l ->
  exists b q, ip_extendable l i = Ret b /\ ip_add l i 1 = Ret q /\
    (b = true <-> is_part (n + 1) q) /\ (b = true -> box_added l q i /\ ip_remove q i 1 = Ret l).
Proof.
  intros Hl Hi. rewrite (ip_extendable_ok n) by auto. rewrite ip_add_ok by auto.
  eexists _, _. split; [reflexivity|]. split; [reflexivity|].
  assert ((i =? 0) || (row l i <? row l (i - 1)) = true <-> (i = 0 \/ row l i < row l (i - 1))) as B by lia.
  rewrite B. split; [split|].
  - intros H. apply is_part_padd; auto.
  - intros H. destruct (Z.eq_dec i 0); [auto|right].
    pose proof (is_part_step _ _ (i - 1) H ltac:(lia)) as S. rewrite !row_padd in S by lia.
    replace (i - 1 + 1) with i in S by lia. destruct (Z.eqb_spec i i), (Z.eqb_spec (i - 1) i); lia.
  - intros H. split.
    + split; [lia|]. split; [rewrite row_padd, Z.eqb_refl by lia; lia|].
      intros j Hj Hne. rewrite row_padd by lia. destruct (Z.eqb_spec j i); lia.
    + rewrite ip_remove_ok.
      * f_equal. eapply prem_padd; eauto.
      * split; [lia|]. apply (ppos_len (padd l i)); [apply ppos_padd; eauto|lia|].
        rewrite row_padd, Z.eqb_refl by lia. pose proof (ppos_row_nonneg l i (is_part_ppos _ _ Hl)). lia.
Qed.

Lemma shortenable_iff n l i : is_part n l -> 0 <= i < zlen l ->
  exists b q, ip_shortenable l i = Ret b /\ ip_remove l i 1 = Ret q /\
    (b = true <-> is_part (n - 1) q) /\ (b = true -> box_added q l i /\ ip_add q i 1 = Ret l).
Proof.
  intros Hl Hi. rewrite (ip_shortenable_ok n) by auto. rewrite ip_remove_ok by auto.
  eexists _, _. split; [reflexivity|]. split; [reflexivity|]. rewrite Z.ltb_lt. split; [split|].
  - intros H. apply is_part_prem; auto.
  - intros H. pose proof (is_part_step _ _ i H ltac:(lia)) as S. rewrite !row_prem in S by (eauto; lia).
    destruct (Z.eqb_spec (i + 1) i), (Z.eqb_spec i i); lia.
  - intros H. split.
    + split; [lia|]. split; [rewrite row_prem by (eauto; lia); rewrite Z.eqb_refl; lia|].
      intros j Hj Hne. rewrite row_prem by (eauto; lia). destruct (Z.eqb_spec j i); lia.
    + rewrite ip_add_ok; [f_equal; eapply padd_prem; eauto|].
      pose proof (zlen_prem l i (is_part_ppos _ _ Hl) Hi). lia.
Qed.

(* ---- C16 ---- *)

Definition corners (l : list Z) : list Z := filter (fun i => row l (i + 1) <? row l i) (rev (zrange 0 (zlen l))).

Lemma foldM_filter {A} (f : Z -> A) (t : Z -> bool) (body : Z -> list A -> outcome (list A)) is acc :
  (forall i acc, In i is -> body i acc = Ret (if t i then acc ++ [f i] else acc)) ->
  foldM body is acc = Ret (acc ++ map f (filter t is)).
Proof.
  revert acc; induction is as [|i is IH]; intros acc H; cbn [foldM filter map]; [rewrite app_nil_r; reflexivity|].
  rewrite H by (left; auto). cbn [bind]. rewrite IH by (intros; apply H; right; auto).
  destruct (t i); cbn [map]; [rewrite <- app_assoc|]; reflexivity.
Qed.

Lemma cb_parents_ok n l : is_part n l -> cb_parents l = Ret (map (prem l) (corners l)).
Proof.
  intros Hl. unfold cb_parents, ip_height, zford. replace (zlen l - 1 + 1) with (zlen l) by lia.
  rewrite foldM_filter with (f := prem l) (t := fun i => row l (i + 1) <? row l i); [reflexivity|].
  intros i acc Hi. apply in_rev, in_zrange in Hi. rewrite (ip_shortenable_ok n) by auto. cbn [bind].
  destruct (Z.ltb_spec (row l (i + 1)) (row l i)); [|reflexivity]. rewrite ip_remove_ok by auto. reflexivity.
Qed.

Lemma ip_foreach_sub_ok n l : is_part n l -> 1 <= n -> ip_foreach_sub l = Ret (map (prem l) (corners l)).
Proof.
  intros Hl Hn. assert (1 <= zlen l) as Hk.
  { destruct l; [destruct Hl as (_ & _ & S); cbn in S; lia|]. rewrite zlen_cons. pose proof (zlen_nonneg l). lia. }
  unfold ip_foreach_sub. destruct (Z.gtb_spec (zlen l) 0); [|lia]. cbn [assert_ bind].
  rewrite (rd_ok l (zlen l - 1) 0) by lia. cbn [bind]. rewrite wr_ok by lia. cbn [bind].
  assert ((if znth l (zlen l - 1) 0 - 1 =? 0 then firstn (Z.to_nat (zlen l - 1)) (zupd l (zlen l - 1) (znth l (zlen l - 1) 0 - 1))
           else zupd l (zlen l - 1) (znth l (zlen l - 1) 0 - 1)) = prem l (zlen l - 1)) as E.
  { unfold prem. cbv zeta. rewrite row_zupd by lia. rewrite Z.eqb_refl. reflexivity. }
  rewrite E. unfold zford. replace (zlen l - 2 + 1) with (zlen l - 1) by lia.
  rewrite foldM_filter with (f := prem l) (t := fun i => row l (i + 1) <? row l i).
  - f_equal. unfold corners. replace (zlen l) with (zlen l - 1 + 1) at 3 by lia. rewrite zrange_snoc by lia.
    rewrite rev_app_distr. cbn [rev app filter]. replace (zlen l - 1 + 1) with (zlen l) by lia. rewrite row_out by lia.
    pose proof (ppos_row l (zlen l - 1) (is_part_ppos _ _ Hl) ltac:(lia)).
    destruct (Z.ltb_spec 0 (row l (zlen l - 1))); [reflexivity|lia].
  - intros i acc Hi. apply in_rev, in_zrange in Hi. rewrite (rd_ok l (i + 1) 0), (rd_ok l i 0) by lia. cbn [bind].
    rewrite !row_znth. destruct (Z.ltb_spec (znth l (i + 1) 0) (znth l i 0)); [|reflexivity]. rewrite wr_ok by lia. cbn [bind].
    f_equal. f_equal. f_equal. unfold prem. cbv zeta. rewrite row_zupd by lia.
    destruct (Z.eqb_spec (zlen l - 1) i); [lia|].
    pose proof (ppos_row l (zlen l - 1) (is_part_ppos _ _ Hl) ltac:(lia)).
    destruct (Z.eqb_spec (row l (zlen l - 1)) 0); [lia|]. reflexivity.
Qed.

Lemma in_corners l i : In i (corners l) <-> 0 <= i < zlen l /\ row l (i + 1) < row l i.
Proof. unfold corners. rewrite filter_In, <- in_rev, in_zrange, Z.ltb_lt. tauto. Qed.

Lemma NoDup_corners l : NoDup (corners l).
Proof. unfold corners. apply NoDup_filter, NoDup_rev, NoDup_zrange. Qed.

Lemma prem_inj l i j : ppos l -> 0 <= i < zlen l -> 0 <= j < zlen l -> prem l i = prem l j -> i = j.
Proof.
  intros Hp Hi Hj E. assert (row (prem l i) i = row (prem l j) i) as K by congruence.
  rewrite !row_prem in K by (auto; lia). destruct (Z.eqb_spec i i), (Z.eqb_spec i j); lia.
Qed.

Lemma contained_tl mu x l : contained mu (x :: l) -> row mu 0 <= x /\ contained (tl mu) l.
Proof.
  intros H. split; [apply (H 0); lia|]. intros i Hi. specialize (H (i + 1) ltac:(lia)).
  rewrite (row_cons x) in H by lia. destruct (Z.eqb_spec (i + 1) 0); [lia|]. replace (i + 1 - 1) with i in H by lia.
  destruct mu as [|y mu]; [rewrite row_nil in *; exact H|].
  rewrite row_cons in H by lia. destruct (Z.eqb_spec (i + 1) 0); [lia|]. replace (i + 1 - 1) with i in H by lia. exact H.
Qed.

Lemma zsum_tl mu : zsum mu = row mu 0 + zsum (tl mu).
Proof. destruct mu; reflexivity. Qed.

Lemma row_tl mu i : 0 <= i -> row (tl mu) i = row mu (i + 1).
Proof.
  intros Hi. destruct mu as [|y mu]; [cbn [tl]; rewrite !row_nil; reflexivity|]. cbn [tl]. rewrite row_cons by lia.
  destruct (Z.eqb_spec (i + 1) 0); [lia|]. f_equal. lia.
Qed.

Lemma contained_nil mu : ppos mu -> contained mu [] -> mu = [].
Proof.
  intros Hp H. destruct mu as [|y mu]; auto. specialize (H 0 ltac:(lia)). rewrite row_nil in H.
  apply ppos_tl in Hp. change (row (y :: mu) 0) with y in H. lia.
Qed.

Lemma ppos_tl' mu : ppos mu -> ppos (tl mu).
Proof. destruct mu; auto. intros H. apply ppos_tl in H. tauto. Qed.

Lemma contained_sum l : forall mu, ppos mu -> contained mu l -> zsum mu <= zsum l /\ (zsum mu = zsum l -> forall i, 0 <= i -> row mu i = row l i).
Proof.
  induction l as [|x l IH]; intros mu Hp H.
  - apply contained_nil in H; auto. subst. split; [lia|auto].
  - apply contained_tl in H as (H1 & H2). destruct (IH (tl mu) (ppos_tl' _ Hp) H2) as (S & Q).
    rewrite (zsum_tl mu), zsum_cons. split; [lia|]. intros E i Hi.
    destruct (Z.eq_dec i 0) as [->|Ne]; [change (row (x :: l) 0) with x; lia|].
    rewrite (row_cons x) by lia. destruct (Z.eqb_spec i 0); [lia|].
    rewrite <- Q by lia. rewrite row_tl by lia. f_equal. lia.
Qed.

Lemma contained_box l : forall mu, ppos mu -> contained mu l -> zsum l = zsum mu + 1 -> exists r, box_added mu l r.
Proof.
  induction l as [|x l IH]; intros mu Hp H Hs.
  - apply contained_nil in H; auto. subst. cbn in Hs. lia.
  - apply contained_tl in H as (H1 & H2). pose proof (contained_sum l (tl mu) (ppos_tl' _ Hp) H2) as (S & Q).
    rewrite (zsum_tl mu), zsum_cons in Hs. destruct (Z.eq_dec (row mu 0) x) as [E|E].
    + destruct (IH (tl mu) (ppos_tl' _ Hp) H2) as (r & R0 & R1 & R2); [lia|]. exists (r + 1). split; [lia|]. split.
      * rewrite row_cons by lia. destruct (Z.eqb_spec (r + 1) 0); [lia|]. replace (r + 1 - 1) with r by lia.
        rewrite R1, row_tl by lia. reflexivity.
      * intros i Hi Hne. destruct (Z.eq_dec i 0) as [->|Ni]; [symmetry; exact E|]. rewrite row_cons by lia.
        destruct (Z.eqb_spec i 0); [lia|]. rewrite R2 by lia. rewrite row_tl by lia. f_equal; lia.
    + exists 0. split; [lia|]. split; [change (row (x :: l) 0) with x; lia|]. intros i Hi Hne. rewrite row_cons by lia.
      destruct (Z.eqb_spec i 0); [lia|]. rewrite <- Q by lia. rewrite row_tl by lia. f_equal; lia.
Qed.

Lemma box_added_corner n mu l r : is_part n l -> ppos mu -> is_part (n - 1) mu -> box_added mu l r ->
  In r (corners l) /\ mu = prem l r.
Proof.
  intros Hl Hp Hm (R0 & R1 & R2). pose proof (ppos_row_nonneg mu r Hp).
  assert (0 <= r < zlen l) as Hr by (split; [lia|]; apply (ppos_len l); eauto; lia).
  assert (row l (r + 1) < row l r) as C.
  { pose proof (is_part_step _ _ r Hm R0). rewrite R2 by lia. lia. }
  split; [apply in_corners; auto|]. apply ppos_ext; auto; [apply ppos_prem; eauto|].
  intros i Hi. rewrite row_prem by (eauto; lia). destruct (Z.eqb_spec i r); [subst; lia|]. rewrite R2 by lia. lia.
Qed.

Lemma parents_exact n l : is_part n l -> 1 <= n ->
  exists ps, ip_parents l = Ret ps /\ cb_parents l = Ret ps /\ NoDup ps /\
    (forall mu, In mu ps <-> is_part (n - 1) mu /\ contained mu l).
Proof.
  intros Hl Hn. exists (map (prem l) (corners l)). split; [apply (ip_foreach_sub_ok n); auto|].
  split; [apply (cb_parents_ok n); auto|]. assert (ppos l) as Hp by eauto. split.
  - assert (forall i j, In i (corners l) -> In j (corners l) -> prem l i = prem l j -> i = j) as Inj.
    { intros i j Hi Hj. apply in_corners in Hi, Hj. apply prem_inj; tauto. }
    pose proof (NoDup_corners l) as N. revert N Inj. generalize (corners l). clear.
    induction l0 as [|i t IH]; intros N Inj; cbn; constructor; inv N.
    + rewrite in_map_iff. intros (j & E & Hj). apply Inj in E; [subst; contradiction|right; auto|left; auto].
    + apply IH; auto. intros; apply Inj; auto; right; auto.
  - intros mu. rewrite in_map_iff. split.
    + intros (i & <- & Hi). apply in_corners in Hi as (Hi & Hc). split; [apply is_part_prem; auto|].
      intros j Hj. rewrite row_prem by auto. destruct (j =? i); lia.
    + intros (Hm & Hc). destruct (contained_box l mu) as (r & R); eauto.
      * rewrite (is_part_sum _ _ Hl), (is_part_sum _ _ Hm). lia.
      * destruct (box_added_corner n mu l r) as (K1 & K2); eauto.
Qed.

(* order of the traversal: rows from which the box is taken decrease *)
Lemma StronglySorted_filter {A} (R : A -> A -> Prop) (t : A -> bool) l : StronglySorted R l -> StronglySorted R (filter t l).
Proof.
  induction l as [|x l IH]; intros H; cbn; [constructor|]. inv H. destruct (t x); auto.
  constructor; auto. rewrite Forall_forall in *. intros y Hy. apply filter_In in Hy. apply H3. tauto.
Qed.

Lemma rev_zrange_sorted lo hi : StronglySorted Z.gt (rev (zrange lo hi)).
Proof.
  remember (Z.to_nat (hi - lo)) as k eqn:Ek. revert hi Ek. induction k as [|k IH]; intros hi Ek.
  - rewrite zrange_nil by lia. constructor.
  - replace hi with (hi - 1 + 1) by lia. rewrite zrange_snoc by lia. rewrite rev_app_distr. cbn.
    constructor; [apply IH; lia|]. rewrite Forall_forall. intros y Hy. apply in_rev, in_zrange in Hy. lia.
Qed.

Lemma corners_sorted l : StronglySorted Z.gt (corners l).
Proof. apply StronglySorted_filter, rev_zrange_sorted. Qed.

Lemma parents_order n l : is_part n l -> 1 <= n ->
  exists ps rs, ip_parents l = Ret ps /\ StronglySorted Z.gt rs /\ Forall2 (fun mu r => box_added mu l r) ps rs.
Proof.
  intros Hl Hn. exists (map (prem l) (corners l)), (corners l). split; [apply (ip_foreach_sub_ok n); auto|].
  split; [apply corners_sorted|].
  assert (forall i, In i (corners l) -> box_added (prem l i) l i) as B.
  { intros i Hi. apply in_corners in Hi as (Hi & Hc). split; [lia|]. split.
    - rewrite row_prem by (eauto; lia). rewrite Z.eqb_refl. lia.
    - intros j Hj Hne. rewrite row_prem by (eauto; lia). destruct (Z.eqb_spec j i); lia. }
  revert B. generalize (corners l). induction l0 as [|i t IH]; intros B; cbn; constructor.
  - apply B. left; auto.
  - apply IH. intros; apply B; right; auto.
Qed.

(* ---- C17 ---- *)

Lemma content_ok n lambda mu r : is_part (n + 1) lambda -> is_part n mu -> box_added mu lambda r ->
  ip_content_of_difference lambda mu = Ret ((row lambda r - 1) - r).
Proof.
  intros Hl Hm (R0 & R1 & R2). unfold ip_content_of_difference.
  rewrite !ip_getn_zsum, (is_part_sum _ _ Hl), (is_part_sum _ _ Hm), Z.eqb_refl. cbn [assrt_ bind].
  assert (zlen mu <= zlen lambda) as HL.
  { destruct (Z_le_dec (zlen mu) (zlen lambda)) as [|N]; auto. exfalso.
    pose proof (ppos_row mu (zlen lambda) (is_part_ppos _ _ Hm)) as P. pose proof (zlen_nonneg lambda).
    specialize (P ltac:(lia)). assert (row lambda (zlen lambda) = 0) as Z0 by (apply row_out; lia).
    destruct (Z.eq_dec (zlen lambda) r) as [E|E]; [rewrite E in *; lia|]. rewrite R2 in Z0 by lia. lia. }
  assert (r <= zlen mu) as Hr.
  { destruct (Z_le_dec r (zlen mu)); auto. exfalso. pose proof (zlen_nonneg mu).
    pose proof (is_part_anti _ _ (zlen mu) r Hl ltac:(lia)) as A. rewrite (R2 (zlen mu)) in A by lia.
    rewrite (row_out mu (zlen mu)) in A by lia. pose proof (ppos_row_nonneg mu r (is_part_ppos _ _ Hm)). lia. }
  assert (r < zlen lambda) as Hr'.
  { apply (ppos_len lambda); eauto. pose proof (ppos_row_nonneg mu r (is_part_ppos _ _ Hm)). lia. }
  destruct (Z.geb_spec (zlen lambda) (zlen mu)); [|lia]. cbn [assrt_ bind].
  match goal with |- context[zforb 0 (zlen mu) ?b tt] => set (body := b) end.
  assert (exists q, zforb 0 (zlen mu) body tt = Ret q /\ match q with inr i => i | inl _ => zlen mu end = r) as (q & Eq & Hq).
  { assert (forall k, 0 <= k <= r -> exists q, zforb k (zlen mu) body tt = Ret q /\
       match q with inr i => i | inl _ => zlen mu end = r) as G; [|apply G; lia].
    intros k. remember (Z.to_nat (r - k)) as w eqn:Ew. revert k Ew. induction w as [|w IH]; intros k Ew Hk.
    - assert (k = r) by lia. subst k. destruct (Z_lt_dec r (zlen mu)).
      + rewrite zforb_cons by lia. unfold body at 1. rewrite (rd_ok mu r 0), (rd_ok lambda r 0) by lia. cbn [bind].
        change (znth mu r 0) with (row mu r). change (znth lambda r 0) with (row lambda r).
        destruct (Z.eqb_spec (row mu r) (row lambda r - 1)); [|lia]. cbn [bind]. eexists; split; [reflexivity|reflexivity].
      + rewrite zforb_nil by lia. eexists; split; [reflexivity|]. cbn. lia.
    - rewrite zforb_cons by lia. unfold body at 1. rewrite (rd_ok mu k 0), (rd_ok lambda k 0) by lia. cbn [bind].
      change (znth mu k 0) with (row mu k). change (znth lambda k 0) with (row lambda k). rewrite (R2 k) by lia.
      destruct (Z.eqb_spec (row mu k) (row mu k - 1)); [lia|]. cbn [bind]. apply IH; lia. }
  rewrite Eq. cbn [bind]. rewrite Hq. rewrite (rd_ok lambda r 0) by lia. reflexivity.
Qed.

Lemma content_throws lambda mu : zsum lambda <> zsum mu + 1 \/ zlen lambda < zlen mu ->
  ip_content_of_difference lambda mu = Throw.
Proof.
  intros H. unfold ip_content_of_difference. rewrite !ip_getn_zsum.
  destruct (Z.eqb_spec (zsum lambda) (zsum mu + 1)); cbn [assrt_ bind]; [|reflexivity].
  destruct (Z.geb_spec (zlen lambda) (zlen mu)); cbn [assrt_ bind]; [lia|reflexivity].
Qed.

Lemma content_not_nested : exists lambda mu c, is_part 4 lambda /\ is_part 3 mu /\ ~ contained mu lambda /\
  ip_content_of_difference lambda mu = Ret c.
Proof.
  exists [2;2], [3], 0. split; [|split; [|split]].
  - split; [intros x [<-|[<-|[]]]; lia|]. split; [|reflexivity]. repeat constructor; lia.
  - split; [intros x [<-|[]]; lia|]. split; [|reflexivity]. repeat constructor; lia.
  - intros H. specialize (H 0 ltac:(lia)). cbn in H. lia.
  - reflexivity.
Qed.

(* ---- C12 ---- *)

Definition pchildren (p : list Z) : list (list Z) :=
  let k := zlen p in
  (if (k =? 1) || (row p (k - 1) <? row p (k - 2)) then [padd p (k - 1)] else []) ++ [padd p k].

Lemma cb_children_ok p : 1 <= zlen p -> cb_children p = Ret (pchildren p).
Proof.
  intros Hk. unfold cb_children, pchildren, ip_height. cbv zeta. destruct (Z.eqb_spec (zlen p) 1) as [E|E].
  - cbn [bind orb]. rewrite ip_add_ok by lia. cbn [bind]. rewrite ip_add_ok by lia. reflexivity.
  - rewrite (rd_ok p (zlen p - 2) 0), (rd_ok p (zlen p - 1) 0) by lia. cbn [bind orb].
    change (znth p (zlen p - 2) 0) with (row p (zlen p - 2)). change (znth p (zlen p - 1) 0) with (row p (zlen p - 1)).
    rewrite Z.gtb_ltb. destruct (row p (zlen p - 1) <? row p (zlen p - 2)); cbn [bind]; rewrite ?ip_add_ok by lia; cbn [bind];
      rewrite ?ip_add_ok by lia; reflexivity.
Qed.

Lemma foldM_flat_map {A B} (f : A -> outcome (list B)) (g : A -> list B) l acc :
  (forall x, In x l -> f x = Ret (g x)) ->
  foldM (fun x acc => c <- f x ;; Ret (acc ++ c)) l acc = Ret (acc ++ flat_map g l).
Proof.
  revert acc; induction l as [|x l IH]; intros acc H; cbn [foldM flat_map]; [rewrite app_nil_r; reflexivity|].
  rewrite H by (left; auto). cbn [bind]. rewrite IH by (intros; apply H; right; auto). rewrite app_assoc. reflexivity.
Qed.

Fixpoint plist (k : nat) : list (list Z) :=
  match k with
  | O => [[1]]
  | S k' => flat_map pchildren (plist k')
  end.

Lemma part_len_pos n p : is_part n p -> 1 <= n -> 1 <= zlen p.
Proof.
  intros Hp Hn. destruct p; [destruct Hp as (_ & _ & S); cbn in S; lia|]. rewrite zlen_cons. pose proof (zlen_nonneg p). lia.
Qed.

Lemma pchildren_part n p q : is_part n p -> 1 <= n -> (In q (pchildren p) <-> is_part (n + 1) q /\ p = prem q (zlen q - 1)).
Proof.
  intros Hp Hn. pose proof (part_len_pos n p Hp Hn) as Hk. assert (ppos p) as Pp by eauto.
  unfold pchildren. cbv zeta. rewrite in_app_iff. split.
  - intros [H|[<-|[]]].
    + destruct ((zlen p =? 1) || (row p (zlen p - 1) <? row p (zlen p - 2))) eqn:E; [|destruct H].
      destruct H as [<-|[]].
      assert (zlen p - 1 = 0 \/ row p (zlen p - 1) < row p (zlen p - 1 - 1)) as X.
      { replace (zlen p - 1 - 1) with (zlen p - 2) by lia. lia. }
      split; [apply is_part_padd; auto; lia|].
      assert (zlen (padd p (zlen p - 1)) = zlen p) as L.
      { unfold padd. destruct (Z.ltb_spec (zlen p - 1) (zlen p)); [apply zlen_zupd; lia|lia]. }
      rewrite L. symmetry. eapply prem_padd; eauto. lia.
    + assert (zlen p = 0 \/ row p (zlen p) < row p (zlen p - 1)) as X.
      { right. rewrite row_out by lia. apply ppos_row_pos; auto; lia. }
      split; [apply is_part_padd; auto; lia|].
      assert (zlen (padd p (zlen p)) = zlen p + 1) as L.
      { unfold padd. destruct (Z.ltb_spec (zlen p) (zlen p)); [lia|]. rewrite zlen_app. reflexivity. }
      rewrite L. replace (zlen p + 1 - 1) with (zlen p) by lia. symmetry. eapply prem_padd; eauto. lia.
  - intros (Hq & E). assert (1 <= zlen q) as Lq by (eapply part_len_pos; eauto; lia). assert (ppos q) as Pq by eauto.
    assert (row q (zlen q - 1 + 1) < row q (zlen q - 1)) as C.
    { replace (zlen q - 1 + 1) with (zlen q) by lia. rewrite row_out by lia. apply ppos_row_pos; auto; lia. }
    pose proof (padd_prem _ q (zlen q - 1) Hq ltac:(lia) C) as A. rewrite <- E in A.
    pose proof (prem_extendable _ q (zlen q - 1) Hq ltac:(lia) C) as X. rewrite <- E in X.
    pose proof (zlen_prem q (zlen q - 1) Pq ltac:(lia)) as LL. rewrite <- E in LL.
    destruct (Z.eq_dec (zlen p) (zlen q)) as [El|El].
    + left. rewrite <- El in A, X. 
      assert ((zlen p =? 1) || (row p (zlen p - 1) <? row p (zlen p - 2)) = true) as ->.
      { replace (zlen p - 1 - 1) with (zlen p - 2) in X by lia. lia. }
      left. exact A.
    + right. left. replace (zlen p) with (zlen q - 1) by lia. exact A.
Qed.

Lemma plist_spec k : forall p, In p (plist k) <-> is_part (Z.of_nat k + 1) p.
Proof.
  induction k as [|k IH]; intros p; cbn [plist].
  - cbn. split.
    + intros [<-|[]]. split; [intros x [<-|[]]; lia|]. split; [repeat constructor|reflexivity].
    + intros H. left. symmetry. apply is_part_1. exact H.
  - rewrite in_flat_map. replace (Z.of_nat (S k) + 1) with (Z.of_nat k + 1 + 1) by lia. split.
    + intros (q & Hq & Hp). apply IH in Hq. eapply pchildren_part in Hp; eauto; [tauto|lia].
    + intros H. pose proof (part_len_pos _ p H ltac:(lia)) as L.
      assert (is_part (Z.of_nat k + 1) (prem p (zlen p - 1))) as K.
      { replace (Z.of_nat k + 1) with (Z.of_nat k + 1 + 1 - 1) by lia. apply is_part_prem; auto; [lia|].
        replace (zlen p - 1 + 1) with (zlen p) by lia. rewrite row_out by lia. apply ppos_row_pos; eauto; lia. }
      exists (prem p (zlen p - 1)). split; [apply IH; auto|]. eapply pchildren_part; eauto. lia.
Qed.

Lemma StronglySorted_app {A} (R : A -> A -> Prop) l l' :
  StronglySorted R l -> StronglySorted R l' -> (forall x y, In x l -> In y l' -> R x y) -> StronglySorted R (l ++ l').
Proof.
  induction l as [|x l IH]; intros H1 H2 H; [exact H2|]. inv H1. cbn. constructor.
  - apply IH; auto. intros; apply H; auto; right; auto.
  - rewrite Forall_forall in *. intros y Hy. apply in_app_iff in Hy. destruct Hy; auto. apply H; auto. left; auto.
Qed.

Lemma StronglySorted_flat_map {A B} (R : A -> A -> Prop) (Q : B -> B -> Prop) (g : A -> list B) l :
  StronglySorted R l -> (forall x, In x l -> StronglySorted Q (g x)) ->
  (forall x y a b, In x l -> In y l -> R x y -> In a (g x) -> In b (g y) -> Q a b) -> StronglySorted Q (flat_map g l).
Proof.
  induction l as [|x l IH]; intros H1 H2 H3; cbn; [constructor|]. inv H1. apply StronglySorted_app.
  - apply H2. left; auto.
  - apply IH; auto; [intros; apply H2; right; auto|]. intros; eapply H3; eauto; right; auto.
  - intros a b Ha Hb. apply in_flat_map in Hb as (y & Hy & Hb). rewrite Forall_forall in H5.
    eapply H3; [left; reflexivity|right; eauto| | |]; eauto.
Qed.

Lemma pchildren_sorted p : 1 <= zlen p -> StronglySorted lex_greater (pchildren p).
Proof.
  intros Hk. unfold pchildren. cbv zeta. destruct (_ || _); cbn [app]; repeat constructor.
  exists (zlen p - 1). split; [lia|]. rewrite !row_padd by lia. split.
  - destruct (Z.eqb_spec (zlen p - 1) (zlen p)), (Z.eqb_spec (zlen p - 1) (zlen p - 1)); lia.
  - intros j Hj. rewrite !row_padd by lia. destruct (Z.eqb_spec j (zlen p)), (Z.eqb_spec j (zlen p - 1)); lia.
Qed.

(* rows before the last one are unchanged in a child *)
Lemma pchildren_row p a i : 1 <= zlen p -> In a (pchildren p) -> 0 <= i ->
  row p i <= row a i /\ (i < zlen p - 1 -> row a i = row p i).
Proof.
  intros Hk H Hi. assert (a = padd p (zlen p - 1) \/ a = padd p (zlen p)) as K.
  { unfold pchildren in H. cbv zeta in H. apply in_app_iff in H. destruct H as [H|[H|[]]]; auto.
    destruct (_ || _); [destruct H as [H|[]]; auto|destruct H]. }
  destruct K as [->| ->]; rewrite row_padd by lia.
  - destruct (Z.eqb_spec i (zlen p - 1)); lia.
  - destruct (Z.eqb_spec i (zlen p)); lia.
Qed.

Lemma zsum_prefix a : forall b i, 0 <= i -> ppos a -> ppos b -> (forall j, 0 <= j < i -> row a j = row b j) ->
  zsum a = zsum b -> row b i < row a i -> i < zlen b - 1.
Proof.
  intros b i Hi. revert a b. remember (Z.to_nat i) as k eqn:Ek. revert i Hi Ek.
  induction k as [|k IH]; intros i Hi Ek a b Ha Hb He Hs Hr.
  - assert (i = 0) by lia. subst i.
    destruct a as [|x a]; [rewrite row_nil in Hr; pose proof (ppos_row_nonneg b 0 Hb); lia|].
    change (row (x :: a) 0) with x in Hr. apply ppos_tl in Ha as (Hx & Ha).
    pose proof (ppos_zsum_len a Ha). pose proof (zlen_nonneg a). rewrite zsum_cons in Hs.
    destruct b as [|y [|z b]].
    + cbn in Hs. lia.
    + change (row [y] 0) with y in Hr. cbn in Hs. lia.
    + rewrite !zlen_cons. pose proof (zlen_nonneg b). lia.
  - pose proof (He 0 ltac:(lia)) as H0.
    destruct a as [|x a]; [rewrite row_nil in Hr; pose proof (ppos_row_nonneg b i Hb); lia|].
    destruct b as [|y b].
    { rewrite row_nil in H0. change (row (x :: a) 0) with x in H0. apply ppos_tl in Ha. lia. }
    change (row (x :: a) 0) with x in H0. change (row (y :: b) 0) with y in H0. subst y.
    rewrite !zsum_cons in Hs. apply ppos_tl in Ha. apply ppos_tl in Hb.
    rewrite !row_cons in Hr by lia. destruct (Z.eqb_spec i 0); [lia|].
    specialize (IH (i - 1) ltac:(lia) ltac:(lia) a b). rewrite zlen_cons. 
    assert (i - 1 < zlen b - 1); [|lia]. apply IH; try tauto; try lia.
    intros j Hj. specialize (He (j + 1) ltac:(lia)). rewrite !row_cons in He by lia.
    destruct (Z.eqb_spec (j + 1) 0); [lia|]. replace (j + 1 - 1) with j in He by lia. exact He.
Qed.

Lemma pchildren_lex n p q a b : is_part n p -> is_part n q -> 1 <= n -> lex_greater p q ->
  In a (pchildren p) -> In b (pchildren q) -> lex_greater a b.
Proof.
  intros Hp Hq Hn (i & Hi & H1 & H2) Ha Hb.
  pose proof (part_len_pos n p Hp Hn) as Lp. pose proof (part_len_pos n q Hq Hn) as Lq.
  assert (i < zlen q - 1) as K.
  { apply (zsum_prefix p q i); eauto. rewrite (is_part_sum _ _ Hp), (is_part_sum _ _ Hq). reflexivity. }
  (* rows of q's child below its last row are q's; find the first place where a exceeds q *)
  assert (forall j, 0 <= j <= i -> row b j = row q j) as Eb by (intros; eapply pchildren_row; eauto; lia).
  assert (exists j, 0 <= j <= i /\ row q j < row a j /\ forall m, 0 <= m < j -> row a m = row q m) as (j & J1 & J2 & J3).
  { assert (row q i < row a i) as G by (pose proof (pchildren_row p a i Lp Ha Hi); lia).
    assert (forall m, 0 <= m <= i -> row q m <= row a m) as M.
    { intros m Hm. pose proof (pchildren_row p a m Lp Ha ltac:(lia)) as (X & _).
      destruct (Z.eq_dec m i); [subst; lia|]. rewrite <- H2 by lia. exact X. }
    clear - G M Hi. remember (Z.to_nat i) as k eqn:Ek. revert i Hi Ek G M.
    induction k as [k IH] using lt_wf_ind. intros i Hi Ek G M.
    destruct (Z.eq_dec i 0) as [->|Ne]; [exists 0; split; [lia|]; split; [auto|]; intros; lia|].
    assert ((exists m, 0 <= m < i /\ row q m < row a m) \/ forall m, 0 <= m < i -> row a m = row q m) as [(m & Hm & Gm)|Eq].
    { clear - M Hi. assert (forall w, 0 <= w <= i -> (exists m, 0 <= m < w /\ row q m < row a m) \/ forall m, 0 <= m < w -> row a m = row q m) as W; [|apply W; lia].
      intros w Hw. remember (Z.to_nat w) as k eqn:Ek. revert w Hw Ek. induction k as [|k IH]; intros w Hw Ek; [right; intros; lia|].
      destruct (IH (w - 1) ltac:(lia) ltac:(lia)) as [(m & A & B)|A]; [left; exists m; split; [lia|auto]|].
      destruct (Z_lt_dec (row q (w - 1)) (row a (w - 1))); [left; exists (w - 1); split; [lia|auto]|].
      right. intros m Hm. destruct (Z.eq_dec m (w - 1)); [|apply A; lia]. subst. pose proof (M (w - 1) ltac:(lia)). lia. }
    - destruct (IH (Z.to_nat m) ltac:(lia) m ltac:(lia) eq_refl Gm) as (j & A & B & C); [intros; apply M; lia|].
      exists j. split; [lia|auto].
    - exists i. split; [lia|auto]. }
  exists j. split; [lia|]. split; [rewrite Eb by lia; auto|]. intros m Hm. rewrite J3, Eb by lia. reflexivity.
Qed.

Lemma plist_sorted k : StronglySorted lex_greater (plist k).
Proof.
  induction k as [|k IH]; cbn [plist]; [repeat constructor|].
  eapply StronglySorted_flat_map; [exact IH| |].
  - intros p Hp. apply pchildren_sorted. apply plist_spec in Hp. eapply part_len_pos; eauto. lia.
  - intros p q a b Hp Hq. apply plist_spec in Hp, Hq. eapply pchildren_lex; eauto. lia.
Qed.

Lemma sorted_NoDup {A} (R : A -> A -> Prop) l : (forall x, ~ R x x) -> StronglySorted R l -> NoDup l.
Proof.
  intros Hi. induction l as [|x l IH]; intros H; constructor; inv H; auto.
  intros K. rewrite Forall_forall in H3. apply (Hi x). auto.
Qed.

Lemma cb_make_partitions_ok k : cb_make_partitions k = Ret (plist k).
Proof.
  induction k as [|k IH]; cbn [cb_make_partitions plist]; [reflexivity|]. rewrite IH. cbn [bind].
  rewrite foldM_flat_map with (g := pchildren); [reflexivity|].
  intros p Hp. apply cb_children_ok. apply plist_spec in Hp. eapply part_len_pos; eauto. lia.
Qed.

Lemma integer_partitions_ok n : 1 <= n -> integer_partitions n = Ret (plist (Z.to_nat (n - 1))).
Proof. intros H. unfold integer_partitions. destruct (Z.ltb_spec n 0); [lia|]. destruct (Z.eqb_spec n 0); [lia|]. apply cb_make_partitions_ok. Qed.

Lemma partitions_complete n : 1 <= n ->
  exists L, integer_partitions n = Ret L /\ NoDup L /\ (forall p, In p L <-> is_part n p) /\
    StronglySorted lex_greater L /\ StronglySorted (fun a b => ip_lt a b = Ret true) L.
Proof.
  intros Hn. exists (plist (Z.to_nat (n - 1))). split; [apply integer_partitions_ok; auto|].
  pose proof (plist_sorted (Z.to_nat (n - 1))) as S.
  assert (forall p, In p (plist (Z.to_nat (n - 1))) <-> is_part n p) as I.
  { intros p. rewrite plist_spec. replace (Z.of_nat (Z.to_nat (n - 1)) + 1) with n by lia. tauto. }
  split; [eapply sorted_NoDup; eauto; apply lex_irrefl|]. split; [exact I|]. split; [exact S|].
  assert (forall p, In p (plist (Z.to_nat (n - 1))) -> is_part n p) as I' by (intros; apply I; auto).
  clear I. revert S I'. generalize (plist (Z.to_nat (n - 1))). induction l as [|x l IH]; intros S I; constructor; inv S.
  - apply IH; auto. intros; apply I; right; auto.
  - rewrite Forall_forall in *. intros y Hy. destruct (ip_lt_ok n x y) as (v & E & K); [apply I; left; auto|apply I; right; auto|].
    rewrite E. f_equal. apply K. auto.
Qed.
