(* Lemmas about partitions. *)
From Coq Require Import ZArith List Bool Lia ZifyBool ZifyNat Sorted.
From Verif Require Import Model_Base Model_Sn Model_Part Spec_Part Proof_Base Proof_Sn.
Import ListNotations.
Open Scope Z_scope.

(* ---- sums ---- *)

Lemma zsum_app a b : zsum (a ++ b) = zsum a + zsum b.
Proof. unfold zsum. induction a as [|x a IH]; cbn; [lia|]. rewrite IH. lia. Qed.

Lemma zsum_cons x l : zsum (x :: l) = x + zsum l.
Proof. reflexivity. Qed.

Lemma ip_getn_zsum l : ip_getn l = zsum l.
Proof.
  unfold ip_getn, zsum. rewrite <- fold_symmetric; [|intros; lia|intros; lia]. reflexivity.
Qed.

Lemma zsum_zupd l i x : 0 <= i < zlen l -> zsum (zupd l i x) = zsum l - row l i + x.
Proof.
  intros H. unfold zupd. rewrite zsum_app, zsum_cons.
  assert (l = firstn (Z.to_nat i) l ++ row l i :: skipn (S (Z.to_nat i)) l) as E.
  { unfold row, zlen in *. assert (Z.to_nat i < length l)%nat as K by lia. revert K. generalize (Z.to_nat i).
    clear. intros m. revert l. induction m as [|m IH]; intros l H; destruct l; cbn in *; try lia; auto.
    f_equal. apply IH. lia. }
  rewrite E at 3. rewrite zsum_app, zsum_cons. lia.
Qed.

(* ---- rows ---- *)

Lemma row_znth l i : row l i = znth l i 0.
Proof. reflexivity. Qed.

Lemma row_out l i : zlen l <= i -> row l i = 0.
Proof. intros H. unfold row. apply nth_overflow. unfold zlen in H; lia. Qed.

Lemma row_zupd l i x j : 0 <= i < zlen l -> 0 <= j -> row (zupd l i x) j = if j =? i then x else row l j.
Proof. apply znth_zupd. Qed.

Lemma row_app l l' i : 0 <= i -> row (l ++ l') i = if i <? zlen l then row l i else row l' (i - zlen l).
Proof. apply znth_app. Qed.

Lemma row_cons x l i : 0 <= i -> row (x :: l) i = if i =? 0 then x else row l (i - 1).
Proof. apply znth_cons. Qed.

Lemma row_firstn l j i : 0 <= i -> 0 <= j -> row (firstn (Z.to_nat j) l) i = if i <? j then row l i else 0.
Proof.
  intros Hi Hj. destruct (Z.ltb_spec i j).
  - apply znth_firstn. lia.
  - apply row_out. unfold zlen. rewrite firstn_length. lia.
Qed.

(* positive parts *)
Definition ppos (l : list Z) : Prop := forall x, In x l -> 1 <= x.

Lemma ppos_row l i : ppos l -> 0 <= i < zlen l -> 1 <= row l i.
Proof. intros H Hi. apply H. apply (znth_In l i 0 Hi). Qed.

Lemma ppos_intro l : (forall i, 0 <= i < zlen l -> 1 <= row l i) -> ppos l.
Proof. intros H x Hx. destruct (In_znth l x 0 Hx) as (i & Hi & <-). apply H; auto. Qed.

Lemma ppos_row_nonneg l i : ppos l -> 0 <= row l i.
Proof.
  intros H. unfold row. destruct (Nat.lt_ge_cases (Z.to_nat i) (length l)).
  - assert (1 <= nth (Z.to_nat i) l 0); [|lia]. apply H. apply nth_In; auto.
  - rewrite nth_overflow by auto. lia.
Qed.

Lemma ppos_len l i : ppos l -> 0 <= i -> (1 <= row l i <-> i < zlen l).
Proof.
  intros H Hi. split; intros K.
  - destruct (Z_lt_dec i (zlen l)); auto. rewrite row_out in K by lia. lia.
  - apply ppos_row; auto; lia.
Qed.

Lemma ppos_ext a b : ppos a -> ppos b -> (forall i, 0 <= i -> row a i = row b i) -> a = b.
Proof.
  intros Ha Hb H. assert (zlen a = zlen b) as HL.
  { pose proof (zlen_nonneg a). pose proof (zlen_nonneg b).
    destruct (Z.lt_total (zlen a) (zlen b)) as [K|[K|K]]; auto; exfalso.
    - pose proof (proj2 (ppos_len b (zlen a) Hb ltac:(lia)) K) as P. rewrite <- H in P by lia.
      rewrite row_out in P by lia. lia.
    - pose proof (proj2 (ppos_len a (zlen b) Ha ltac:(lia)) K) as P. rewrite H in P by lia.
      rewrite row_out in P by lia. lia. }
  apply list_ext with (d := 0); auto. intros i Hi. apply H. lia.
Qed.

Lemma sorted_row l : StronglySorted Z.ge l <-> forall i, 0 <= i -> i + 1 < zlen l -> row l (i + 1) <= row l i.
Proof.
  induction l as [|x l IH].
  - split; [intros _ i H1 H2; unfold zlen in H2; cbn in H2; lia|constructor].
  - split.
    + intros H i Hi H1. inv H. rewrite zlen_cons in H1. rewrite !row_cons by lia.
      destruct (Z.eqb_spec (i + 1) 0); [lia|]. replace (i + 1 - 1) with i by lia.
      destruct (Z.eqb_spec i 0) as [->|Ne].
      * rewrite Forall_forall in H4. assert (x >= row l 0); [|lia]. apply H4. apply (znth_In l 0 0). lia.
      * destruct IH as (IH & _). specialize (IH H3 (i - 1) ltac:(lia) ltac:(lia)).
        replace (i - 1 + 1) with i in IH by lia. exact IH.
    + intros H. assert (StronglySorted Z.ge l) as S.
      { apply IH. intros i Hi H1. specialize (H (i + 1) ltac:(lia)). rewrite zlen_cons in H. specialize (H ltac:(lia)).
        rewrite !row_cons in H by lia. destruct (Z.eqb_spec (i + 1 + 1) 0); [lia|]. destruct (Z.eqb_spec (i + 1) 0); [lia|].
        replace (i + 1 + 1 - 1) with (i + 1) in H by lia. replace (i + 1 - 1) with i in H by lia. exact H. }
      constructor; [exact S|]. destruct l as [|y l]; [constructor|].
      inv S. assert (x >= y) as XY.
      { specialize (H 0 ltac:(lia)). rewrite !zlen_cons in H. pose proof (zlen_nonneg l). specialize (H ltac:(lia)).
        change (row (x :: y :: l) (0 + 1)) with y in H. change (row (x :: y :: l) 0) with x in H. lia. }
      constructor; [exact XY|]. rewrite Forall_forall in *. intros z Hz. apply H3 in Hz. lia.
Qed.

Lemma is_part_intro n l : ppos l -> (forall i, 0 <= i -> row l (i + 1) <= row l i) -> zsum l = n -> is_part n l.
Proof. intros H1 H2 H3. split; [exact H1|]. split; [|exact H3]. apply sorted_row. intros; apply H2; auto. Qed.

Lemma is_part_ppos n l : is_part n l -> ppos l.
Proof. intros (H & _). exact H. Qed.
#[export] Hint Resolve is_part_ppos : core.

Lemma is_part_step n l i : is_part n l -> 0 <= i -> row l (i + 1) <= row l i.
Proof.
  intros Hl Hi. destruct (Z_lt_dec (i + 1) (zlen l)).
  - destruct Hl as (_ & S & _). pose proof (proj1 (sorted_row l) S). auto.
  - rewrite row_out by lia. apply ppos_row_nonneg. eauto.
Qed.

Lemma is_part_anti n l i j : is_part n l -> 0 <= i <= j -> row l j <= row l i.
Proof.
  intros Hl H. remember (Z.to_nat (j - i)) as k eqn:Ek. revert j H Ek.
  induction k as [|k IH]; intros j H Ek; [replace j with i by lia; lia|].
  pose proof (IH (j - 1) ltac:(lia) ltac:(lia)). pose proof (is_part_step n l (j - 1) Hl ltac:(lia)) as S.
  replace (j - 1 + 1) with j in S by lia. lia.
Qed.

Lemma ppos_zsum_len l : ppos l -> zlen l <= zsum l.
Proof.
  induction l as [|x l IH]; intros H; [unfold zlen; cbn; lia|]. rewrite zlen_cons, zsum_cons.
  pose proof (H x (or_introl eq_refl)). specialize (IH (fun y Hy => H y (or_intror Hy))). lia.
Qed.

Lemma is_part_sum n l : is_part n l -> zsum l = n.
Proof. intros (_ & _ & H). exact H. Qed.

Lemma is_part_nonneg n l : is_part n l -> 0 <= n.
Proof. intros H. pose proof (ppos_zsum_len l (is_part_ppos _ _ H)). rewrite (is_part_sum _ _ H) in *. pose proof (zlen_nonneg l). lia. Qed.

Lemma is_part_0 l : is_part 0 l -> l = [].
Proof.
  intros H. pose proof (ppos_zsum_len l (is_part_ppos _ _ H)) as B. rewrite (is_part_sum _ _ H) in B.
  apply zlen_0_nil. pose proof (zlen_nonneg l). lia.
Qed.

Lemma is_part_nil : is_part 0 [].
Proof. split; [intros x []|]. split; [constructor|reflexivity]. Qed.

Lemma is_part_1 l : is_part 1 l -> l = [1].
Proof.
  intros H. destruct l as [|x l]; [destruct H as (_ & _ & H); discriminate|].
  assert (ppos (x :: l)) as P by eauto. pose proof (P x (or_introl eq_refl)).
  assert (ppos l) as P' by (intros y Hy; apply P; right; auto).
  pose proof (ppos_zsum_len l P'). pose proof (is_part_sum _ _ H) as S. rewrite zsum_cons in S.
  pose proof (zlen_nonneg l). assert (zlen l = 0) by lia. apply zlen_0_nil in H3. subst. cbn in *. f_equal. lia.
Qed.

(* ---- adding and removing a box, purely ---- *)

Definition padd (l : list Z) (r : Z) : list Z := if r <? zlen l then zupd l r (row l r + 1) else l ++ [1].
Definition prem (l : list Z) (r : Z) : list Z :=
  let q := zupd l r (row l r - 1) in
  if row q (zlen l - 1) =? 0 then firstn (Z.to_nat (zlen l - 1)) q else q.

Lemma row_padd l r i : 0 <= r <= zlen l -> 0 <= i -> row (padd l r) i = row l i + (if i =? r then 1 else 0).
Proof.
  intros Hr Hi. unfold padd. destruct (Z.ltb_spec r (zlen l)).
  - rewrite row_zupd by lia. destruct (Z.eqb_spec i r); subst; lia.
  - rewrite row_app by lia. destruct (Z.ltb_spec i (zlen l)), (Z.eqb_spec i r); try lia.
    + subst i. replace r with (zlen l) by lia. rewrite Z.sub_diag. rewrite (row_out l) by lia. reflexivity.
    + rewrite (row_out l) by lia. rewrite row_out by (unfold zlen in *; cbn; lia). reflexivity.
Qed.

Lemma zsum_padd l r : 0 <= r <= zlen l -> zsum (padd l r) = zsum l + 1.
Proof.
  intros Hr. unfold padd. destruct (Z.ltb_spec r (zlen l)).
  - rewrite zsum_zupd by lia. lia.
  - rewrite zsum_app. reflexivity.
Qed.

Lemma ppos_padd l r : ppos l -> 0 <= r <= zlen l -> ppos (padd l r).
Proof.
  intros Hp Hr. apply ppos_intro. intros i Hi. rewrite row_padd by lia.
  unfold padd in Hi. destruct (Z.ltb_spec r (zlen l)).
  - rewrite zlen_zupd in Hi by lia. pose proof (ppos_row l i Hp Hi). destruct (i =? r); lia.
  - rewrite zlen_app in Hi. change (zlen [1]) with 1 in Hi. pose proof (ppos_row_nonneg l i Hp).
    destruct (Z.eqb_spec i r); [lia|]. pose proof (ppos_row l i Hp ltac:(lia)). lia.
Qed.

Lemma row_prem l r i : ppos l -> 0 <= r < zlen l -> 0 <= i -> row (prem l r) i = row l i - (if i =? r then 1 else 0).
Proof.
  intros Hp Hr Hi. unfold prem. cbv zeta. rewrite row_zupd by lia.
  set (b := if zlen l - 1 =? r then row l r - 1 else row l (zlen l - 1)).
  destruct (Z.eqb_spec b 0) as [Eb|Eb].
  - rewrite row_firstn by lia. rewrite row_zupd by lia. unfold b in Eb.
    destruct (Z.eqb_spec (zlen l - 1) r) as [Er|Er].
    + destruct (Z.ltb_spec i (zlen l - 1)), (Z.eqb_spec i r); try lia; subst; try lia.
      rewrite row_out by lia. lia.
    + pose proof (ppos_row l (zlen l - 1) Hp ltac:(lia)). lia.
  - rewrite row_zupd by lia. destruct (Z.eqb_spec i r); subst; lia.
Qed.

Lemma zsum_firstn_last q : 1 <= zlen q -> zsum q = zsum (firstn (Z.to_nat (zlen q - 1)) q) + row q (zlen q - 1).
Proof.
  intros H. rewrite <- (firstn_skipn (Z.to_nat (zlen q - 1)) q) at 1. rewrite zsum_app. f_equal.
  assert (zlen (skipn (Z.to_nat (zlen q - 1)) q) = 1) as L by (rewrite zlen_skipn by lia; lia).
  pose proof (znth_skipn (zlen q - 1) q 0 0 ltac:(lia) ltac:(lia)) as N. cbn [Z.add] in N.
  rewrite row_znth, <- N. destruct (skipn _ q) as [|x [|y t]]; unfold zlen in L; cbn in L; try lia. cbn. lia.
Qed.

Lemma zsum_prem l r : ppos l -> 0 <= r < zlen l -> zsum (prem l r) = zsum l - 1.
Proof.
  intros Hp Hr. unfold prem. cbv zeta.
  assert (zlen (zupd l r (row l r - 1)) = zlen l) as L by (apply zlen_zupd; lia).
  assert (zsum (zupd l r (row l r - 1)) = zsum l - 1) as S by (rewrite zsum_zupd by lia; lia).
  destruct (Z.eqb_spec (row (zupd l r (row l r - 1)) (zlen l - 1)) 0) as [E|E]; [|exact S].
  pose proof (zsum_firstn_last (zupd l r (row l r - 1)) ltac:(lia)) as F. rewrite L in F. lia.
Qed.

(* a row of length 1 that is not the last one would become an interior zero *)
Lemma ppos_prem l r : ppos l -> 0 <= r < zlen l -> row l (r + 1) < row l r -> ppos (prem l r).
Proof.
  intros Hp Hr Hs. apply ppos_intro. intros i Hi.
  assert (0 <= i < zlen l) as Hi'.
  { unfold prem in Hi. cbv zeta in Hi. destruct (_ =? _); [unfold zlen in Hi; rewrite firstn_length in Hi|];
      rewrite ?length_zupd in Hi by lia; rewrite ?zlen_zupd in Hi by lia; unfold zlen in *; lia. }
  rewrite row_prem by (auto; lia). pose proof (ppos_row l i Hp Hi').
  destruct (Z.eqb_spec i r) as [->|Ne]; [|lia].
  destruct (Z_lt_dec (r + 1) (zlen l)) as [K|K].
  - pose proof (ppos_row l (r + 1) Hp ltac:(lia)). lia.
  - assert (row l r <> 1); [|lia]. intros E1.
    unfold prem in Hi. cbv zeta in Hi. rewrite row_zupd in Hi by lia.
    destruct (Z.eqb_spec (zlen l - 1) r); [|lia]. rewrite E1 in Hi. cbn in Hi. unfold zlen in Hi.
    rewrite firstn_length, length_zupd in Hi by (unfold zlen; lia). unfold zlen in *. lia.
Qed.

Lemma is_part_padd n l r : is_part n l -> 0 <= r <= zlen l -> (r = 0 \/ row l r < row l (r - 1)) ->
  is_part (n + 1) (padd l r).
Proof.
  intros Hl Hr He. apply is_part_intro.
  - apply ppos_padd; eauto.
  - intros i Hi. rewrite !row_padd by lia. pose proof (is_part_step n l i Hl Hi).
    destruct (Z.eqb_spec (i + 1) r), (Z.eqb_spec i r); try lia.
    destruct He as [->|He]; [lia|]. replace i with (r - 1) by lia. replace (r - 1 + 1) with r by lia. lia.
  - rewrite zsum_padd by lia. rewrite (is_part_sum _ _ Hl). reflexivity.
Qed.

Lemma is_part_prem n l r : is_part n l -> 0 <= r < zlen l -> row l (r + 1) < row l r -> is_part (n - 1) (prem l r).
Proof.
  intros Hl Hr He. assert (ppos l) as Hp by eauto. apply is_part_intro.
  - apply ppos_prem; auto.
  - intros i Hi. rewrite !row_prem by (auto; lia). pose proof (is_part_step n l i Hl Hi).
    destruct (Z.eqb_spec (i + 1) r), (Z.eqb_spec i r); subst; lia.
  - rewrite zsum_prem by auto. rewrite (is_part_sum _ _ Hl). reflexivity.
Qed.

Lemma prem_padd n l r : is_part n l -> 0 <= r <= zlen l -> (r = 0 \/ row l r < row l (r - 1)) -> prem (padd l r) r = l.
Proof.
  intros Hl Hr He. pose proof (is_part_padd n l r Hl Hr He) as Ha.
  assert (0 <= r < zlen (padd l r)) as Hr'.
  { split; [lia|]. apply (ppos_len (padd l r)); [eauto|lia|]. rewrite row_padd by lia. rewrite Z.eqb_refl.
    pose proof (ppos_row_nonneg l r (is_part_ppos _ _ Hl)). lia. }
  apply ppos_ext; eauto.
  - apply ppos_prem; eauto. rewrite !row_padd by lia. pose proof (is_part_step n l r Hl ltac:(lia)).
    destruct (Z.eqb_spec (r + 1) r), (Z.eqb_spec r r); lia.
  - intros i Hi. rewrite row_prem by (eauto; lia). rewrite row_padd by lia. destruct (i =? r); lia.
Qed.

Lemma zlen_prem l r : ppos l -> 0 <= r < zlen l -> r <= zlen (prem l r) /\ zlen (prem l r) <= zlen l.
Proof.
  intros Hp Hr. unfold prem. cbv zeta. pose proof (zlen_zupd l r (row l r - 1) Hr).
  destruct (_ =? _); [rewrite zlen_firstn by lia|]; lia.
Qed.

Lemma padd_prem n l r : is_part n l -> 0 <= r < zlen l -> row l (r + 1) < row l r -> padd (prem l r) r = l.
Proof.
  intros Hl Hr He. assert (ppos l) as Hp by eauto. pose proof (zlen_prem l r Hp Hr).
  pose proof (ppos_prem l r Hp Hr He).
  apply ppos_ext; auto.
  - apply ppos_padd; auto. lia.
  - intros i Hi. rewrite row_padd by lia. rewrite row_prem by (auto; lia). destruct (i =? r); lia.
Qed.

(* the row where a box was removed can be extended again *)
Lemma prem_extendable n l r : is_part n l -> 0 <= r < zlen l -> row l (r + 1) < row l r ->
  r = 0 \/ row (prem l r) r < row (prem l r) (r - 1).
Proof.
  intros Hl Hr He. destruct (Z.eq_dec r 0); [auto|right]. rewrite !row_prem by (eauto; lia).
  pose proof (is_part_step n l (r - 1) Hl ltac:(lia)) as S. replace (r - 1 + 1) with r in S by lia.
  destruct (Z.eqb_spec r r), (Z.eqb_spec (r - 1) r); lia.
Qed.

(* ---- model operations ---- *)

Lemma ip_add_ok l r : 0 <= r <= zlen l -> ip_add l r 1 = Ret (padd l r).
Proof.
  intros H. unfold ip_add, padd. destruct (Z.ltb_spec r (zlen l)); [|reflexivity].
  rewrite (rd_ok l r 0) by lia. cbn [bind]. rewrite wr_ok by lia. reflexivity.
Qed.

Lemma ip_remove_ok l r : 0 <= r < zlen l -> ip_remove l r 1 = Ret (prem l r).
Proof.
  intros H. unfold ip_remove, prem. rewrite (rd_ok l r 0) by lia. cbn [bind]. rewrite wr_ok by lia. cbn [bind].
  pose proof (zlen_zupd l r (znth l r 0 - 1) H) as L. rewrite L.
  rewrite (rd_ok _ (zlen l - 1) 0) by lia. cbn [bind].
  rewrite row_znth. change (row l r) with (znth l r 0). destruct (_ =? 0); reflexivity.
Qed.

Lemma ip_extendable_ok n l i : is_part n l -> 0 <= i <= zlen l ->
  ip_extendable l i = Ret ((i =? 0) || (row l i <? row l (i - 1))).
Proof.
  intros Hl Hi. unfold ip_extendable. destruct (Z.eqb_spec i (zlen l)) as [->|Ne].
  - f_equal. destruct (Z.eqb_spec (zlen l) 0); [reflexivity|].
    rewrite row_out by lia. pose proof (ppos_row l (zlen l - 1) (is_part_ppos _ _ Hl) ltac:(lia)).
    destruct (Z.ltb_spec 0 (row l (zlen l - 1))); [reflexivity|lia].
  - destruct (Z.eqb_spec i 0); [reflexivity|].
    rewrite (rd_ok l (i - 1) 0), (rd_ok l i 0) by lia. cbn [bind]. f_equal.
    rewrite Z.gtb_ltb. reflexivity.
Qed.

Lemma ip_shortenable_ok n l i : is_part n l -> 0 <= i < zlen l ->
  ip_shortenable l i = Ret (row l (i + 1) <? row l i).
Proof.
  intros Hl Hi. unfold ip_shortenable. destruct (Z.eqb_spec i (zlen l - 1)) as [->|Ne].
  - rewrite row_out by lia. pose proof (ppos_row l (zlen l - 1) (is_part_ppos _ _ Hl) ltac:(lia)).
    destruct (Z.ltb_spec 0 (row l (zlen l - 1))); [reflexivity|lia].
  - rewrite (rd_ok l (i + 1) 0), (rd_ok l i 0) by lia. reflexivity.
Qed.
