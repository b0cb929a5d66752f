(* Lemmas about tableaux. *)
From Coq Require Import ZArith List Bool Lia ZifyBool ZifyNat Sorted Permutation.
From Verif Require Import Model_Base Model_Part Model_Comb Model_Tab Spec_Perm Spec_Part Spec_Tab
  Proof_Base Proof_Perm Proof_Sn Proof_Part Proof_PartProps.
Import ListNotations.
Open Scope Z_scope.

Definition shp (t : list (list Z)) : list Z := map zlen t.

Lemma has_shape_shp lambda t : has_shape lambda t <-> shp t = lambda.
Proof. reflexivity. Qed.

Lemma zlen_shp t : zlen (shp t) = zlen t.
Proof. apply zlen_map. Qed.

Lemma row_shp t r : row (shp t) r = zlen (znth t r []).
Proof. unfold row, shp, znth. change 0 with (zlen (@nil Z)). apply map_nth. Qed.

Lemma entry_znth t r c : entry t r c = znth (znth t r []) c 0.
Proof. reflexivity. Qed.

Lemma cell_iff l r c : cell l r c <-> 0 <= r /\ 0 <= c < row l r.
Proof.
  unfold cell. split; [tauto|]. intros (H1 & H2). split; [|auto]. split; [auto|].
  destruct (Z_lt_dec r (Z.of_nat (length l))); auto. rewrite row_out in H2 by (unfold zlen; lia). lia.
Qed.

Lemma cell_rows l r c : cell l r c -> 0 <= r < zlen l.
Proof. intros (H & _). exact H. Qed.

Lemma tab_ext t t' : shp t = shp t' -> (forall r c, cell (shp t) r c -> entry t r c = entry t' r c) -> t = t'.
Proof.
  intros Hs He. assert (zlen t = zlen t') as L by (rewrite <- !zlen_shp, Hs; reflexivity).
  apply list_ext with (d := []); auto. intros r Hr.
  assert (zlen (znth t r []) = zlen (znth t' r [])) as Lr by (rewrite <- !row_shp, Hs; reflexivity).
  apply list_ext with (d := 0); auto. intros c Hc. apply He. apply cell_iff. rewrite row_shp. lia.
Qed.

Lemma In_concat_cell t v : In v (concat t) <-> exists r c, cell (shp t) r c /\ entry t r c = v.
Proof.
  rewrite in_concat. split.
  - intros (rw & H1 & H2). destruct (In_znth t rw [] H1) as (r & Hr & <-). destruct (In_znth _ v 0 H2) as (c & Hc & <-).
    exists r, c. split; [|reflexivity]. apply cell_iff. rewrite row_shp. lia.
  - intros (r & c & Hc & <-). pose proof (cell_rows _ _ _ Hc) as Hr. rewrite zlen_shp in Hr.
    apply cell_iff in Hc. rewrite row_shp in Hc.
    exists (znth t r []). split; [apply znth_In; auto|apply znth_In; tauto].
Qed.

Lemma entry_cons rw t r c : 0 <= r -> entry (rw :: t) r c = if r =? 0 then znth rw c 0 else entry t (r - 1) c.
Proof. intros H. rewrite !entry_znth, znth_cons by lia. destruct (r =? 0); reflexivity. Qed.

Lemma cell_cons x l r c : 0 <= r -> (cell (x :: l) r c <-> if r =? 0 then 0 <= c < x else cell l (r - 1) c).
Proof.
  intros H. rewrite cell_iff, row_cons by lia. destruct (Z.eqb_spec r 0); [tauto|]. rewrite cell_iff. intuition lia.
Qed.

Lemma entry_inj t r c r' c' : NoDup (concat t) -> cell (shp t) r c -> cell (shp t) r' c' ->
  entry t r c = entry t r' c' -> r = r' /\ c = c'.
Proof.
  revert r r'; induction t as [|rw t IH]; intros r r' HN Hc Hc' E.
  - apply cell_rows in Hc. unfold zlen in Hc. cbn in Hc. lia.
  - cbn [concat] in HN. pose proof (cell_rows _ _ _ Hc) as R. pose proof (cell_rows _ _ _ Hc') as R'.
    cbn [shp map] in Hc, Hc'. fold (shp t) in *. rewrite cell_cons in Hc, Hc' by lia. rewrite !entry_cons in E by lia.
    assert (NoDup rw /\ NoDup (concat t) /\ forall v, In v rw -> In v (concat t) -> False) as (N1 & N2 & N3).
    { clear - HN. induction rw as [|x rw IHr]; cbn in *; [repeat split; auto; constructor|]. inv HN.
      destruct (IHr H2) as (A & B & C). repeat split; auto.
      - constructor; auto. intros K. apply H1. apply in_app_iff; auto.
      - intros v [->|Hv] Hv'; [apply H1, in_app_iff; auto|eauto]. }
    destruct (Z.eqb_spec r 0), (Z.eqb_spec r' 0).
    + subst. split; auto. apply (NoDup_znth rw 0); auto.
    + exfalso. apply (N3 (znth rw c 0)); [apply znth_In; lia|]. rewrite E. apply In_concat_cell. eauto.
    + exfalso. apply (N3 (znth rw c' 0)); [apply znth_In; lia|]. rewrite <- E. apply In_concat_cell. eauto.
    + destruct (IH (r - 1) (r' - 1)); auto. lia.
Qed.

Lemma zlen_concat t : zlen (concat t) = zsum (shp t).
Proof. induction t as [|r t IH]; [reflexivity|]. cbn [concat shp map]. rewrite zlen_app, zsum_cons, IH. reflexivity. Qed.

(* ---- add ---- *)

Definition yadd (t : list (list Z)) (r v : Z) : list (list Z) :=
  if r <? zlen t then zupd t r (znth t r [] ++ [v]) else t ++ [[v]].

Lemma yt_add_ok t r v : 0 <= r <= zlen t -> yt_add t r v = Ret (yadd t r v).
Proof.
  intros H. unfold yt_add, yadd, yt_k. destruct (Z.ltb_spec r (zlen t)); [|reflexivity].
  rewrite (vat_ok t r []) by lia. cbn [bind]. rewrite vat_set_ok by lia. reflexivity.
Qed.

Lemma map_zupd {A B} (f : A -> B) l i x : map f (zupd l i x) = zupd (map f l) i (f x).
Proof. unfold zupd. rewrite map_app. cbn [map]. rewrite firstn_map, skipn_map. reflexivity. Qed.

Lemma shp_yadd t r v : 0 <= r <= zlen t -> shp (yadd t r v) = padd (shp t) r.
Proof.
  intros H. unfold yadd, padd. rewrite zlen_shp. destruct (Z.ltb_spec r (zlen t)).
  - unfold shp at 1. rewrite map_zupd. fold (shp t). f_equal. rewrite zlen_app, row_shp. reflexivity.
  - unfold shp. rewrite map_app. reflexivity.
Qed.

Lemma entry_yadd t r v i c : 0 <= r <= zlen t -> 0 <= i -> 0 <= c ->
  entry (yadd t r v) i c = if (i =? r) && (c =? row (shp t) r) then v else entry t i c.
Proof.
  intros Hr Hi Hc. unfold yadd. rewrite !entry_znth, row_shp. destruct (Z.ltb_spec r (zlen t)).
  - rewrite znth_zupd by lia. destruct (Z.eqb_spec i r) as [->|Ne]; cbn [andb]; [|reflexivity].
    rewrite znth_app by lia. destruct (Z.eqb_spec c (zlen (znth t r []))) as [->|Nc].
    + destruct (Z.ltb_spec (zlen (znth t r [])) (zlen (znth t r []))); [lia|]. rewrite Z.sub_diag. reflexivity.
    + destruct (Z.ltb_spec c (zlen (znth t r []))); [reflexivity|].
      assert (zlen [v] <= c - zlen (znth t r [])) by (change (zlen [v]) with 1; lia).
      pose proof (row_out [v] (c - zlen (znth t r [])) H1) as R. rewrite row_znth in R. rewrite R.
      pose proof (row_out (znth t r []) c ltac:(lia)) as R'. rewrite row_znth in R'. rewrite R'. reflexivity.
  - rewrite znth_app by lia. assert (znth t r [] = []) as E0.
    { unfold znth. apply nth_overflow. unfold zlen in *; lia. }
    rewrite E0. change (zlen (@nil Z)) with 0. destruct (Z.ltb_spec i (zlen t)).
    + destruct (Z.eqb_spec i r); [lia|]. reflexivity.
    + destruct (Z.eqb_spec i r) as [->|Ne]; cbn [andb].
      * replace (r - zlen t) with 0 by lia. change (znth [[v]] 0 []) with [v]. rewrite znth_cons by lia.
        destruct (Z.eqb_spec c 0); [reflexivity|]. rewrite E0. unfold znth. destruct (Z.to_nat (c - 1)), (Z.to_nat c); reflexivity.
      * assert (znth t i [] = []) as E1 by (unfold znth; apply nth_overflow; unfold zlen in *; lia).
        assert (znth [[v]] (i - zlen t) [] = []) as E2 by (unfold znth; apply nth_overflow; cbn; lia).
        rewrite E1, E2. reflexivity.
Qed.

Lemma concat_yadd t r v : 0 <= r <= zlen t -> Permutation (concat (yadd t r v)) (v :: concat t).
Proof.
  intros H. unfold yadd. destruct (Z.ltb_spec r (zlen t)).
  - assert (t = firstn (Z.to_nat r) t ++ znth t r [] :: skipn (S (Z.to_nat r)) t) as E.
    { unfold znth, zlen in *. assert (Z.to_nat r < length t)%nat as K by lia. revert K. generalize (Z.to_nat r).
      clear. intros m. revert t. induction m as [|m IH]; intros t H; destruct t; cbn in *; try lia; auto.
      f_equal. apply IH. lia. }
    unfold zupd. rewrite E at 4. rewrite !concat_app. cbn [concat]. rewrite <- app_assoc. cbn [app].
    rewrite !app_assoc. symmetry. apply Permutation_middle.
  - rewrite concat_app. cbn. symmetry. apply Permutation_cons_append.
Qed.

Lemma is_perm_Permutation n l l' : Permutation l l' -> is_perm n l -> is_perm n l'.
Proof.
  intros HP (H1 & H2 & H3). split; [|split].
  - rewrite <- (Permutation_length HP). exact H1.
  - intros v Hv. apply H2. eapply Permutation_in; [symmetry; exact HP|auto].
  - eapply Permutation_NoDup; eauto.
Qed.

Lemma is_perm_cons n l : is_perm (n + 1) (n + 1 :: l) <-> is_perm n l.
Proof.
  split.
  - intros (H1 & H2 & H3). inv H3. split; [cbn [length] in H1; lia|]. split; [|auto].
    intros v Hv. pose proof (H2 v (or_intror Hv)). assert (v <> n + 1) by congruence. lia.
  - intros H. pose proof (is_perm_zins n 0 l H) as P. exact P.
Qed.

(* ---- standard tableaux grow by the largest entry ---- *)

Lemma cell_padd mu r i c : ppos mu -> 0 <= r <= zlen mu ->
  (cell (padd mu r) i c <-> cell mu i c \/ (i = r /\ c = row mu r)).
Proof.
  intros Hp Hr. rewrite !cell_iff. pose proof (ppos_row_nonneg mu r Hp). split.
  - intros (H1 & H2). rewrite row_padd in H2 by lia. destruct (Z.eqb_spec i r); subst; lia.
  - intros [(H1 & H2)|(-> & ->)]; rewrite row_padd by lia; [destruct (Z.eqb_spec i r); lia|rewrite Z.eqb_refl; lia].
Qed.

Lemma standard_entry_range lambda t r c : standard lambda t -> cell lambda r c -> 1 <= entry t r c <= zsum lambda.
Proof.
  intros (Hs & Hp & _) Hc. destruct Hp as (_ & R & _). apply R. apply In_concat_cell. exists r, c.
  apply has_shape_shp in Hs. rewrite Hs. auto.
Qed.

Lemma standard_yadd n mu t r : is_part n mu -> 0 <= r <= zlen mu -> (r = 0 \/ row mu r < row mu (r - 1)) ->
  standard mu t -> standard (padd mu r) (yadd t r (n + 1)).
Proof.
  intros Hm Hr He St. pose proof (is_part_sum _ _ Hm) as Hsum. assert (ppos mu) as Pm by eauto.
  pose proof (proj1 (has_shape_shp _ _) (proj1 St)) as Hs.
  assert (zlen t = zlen mu) as L by (rewrite <- zlen_shp, Hs; reflexivity).
  assert (forall i c, cell mu i c -> entry (yadd t r (n + 1)) i c = entry t i c) as E1.
  { intros i c Hc. apply cell_iff in Hc. rewrite entry_yadd by lia. rewrite Hs.
    destruct (Z.eqb_spec i r), (Z.eqb_spec c (row mu r)); cbn [andb]; auto. subst. lia. }
  assert (entry (yadd t r (n + 1)) r (row mu r) = n + 1) as E2.
  { pose proof (ppos_row_nonneg mu r Pm). rewrite entry_yadd by lia. rewrite Hs, !Z.eqb_refl. reflexivity. }
  assert (forall i c, cell mu i c -> entry t i c <= n) as B.
  { intros i c Hc. pose proof (standard_entry_range _ _ _ _ St Hc). lia. }
  destruct St as (_ & Hp & Hrow & Hcol). split; [|split; [|split]].
  - apply has_shape_shp. rewrite shp_yadd by lia. congruence.
  - rewrite zsum_padd by lia. rewrite Hsum. eapply is_perm_Permutation; [symmetry; apply concat_yadd; lia|].
    apply is_perm_cons. rewrite <- Hsum. exact Hp.
  - intros i c C1 C2. rewrite cell_padd in C1, C2 by (auto; lia).
    destruct C1 as [C1|(-> & ->)].
    + destruct C2 as [C2|(-> & Ec)].
      * rewrite !E1 by auto. apply Hrow; auto.
      * rewrite Ec, E2. rewrite E1 by auto. specialize (B _ _ C1). lia.
    + destruct C2 as [C2|(_ & Ec)]; [|lia]. apply cell_iff in C2. lia.
  - intros i c C1 C2. rewrite cell_padd in C1, C2 by (auto; lia).
    destruct C1 as [C1|(-> & ->)].
    + destruct C2 as [C2|(Ei & Ec)].
      * rewrite !E1 by auto. apply Hcol; auto.
      * rewrite Ei, Ec, E2. rewrite E1 by (subst; auto). specialize (B _ _ C1). subst. lia.
    + destruct C2 as [C2|(Ei & Ec)]; [|lia]. apply cell_iff in C2. pose proof (is_part_step _ _ r Hm ltac:(lia)). lia.
Qed.

(* removing the last entry of a row *)
Definition yrem (t : list (list Z)) (r : Z) : list (list Z) :=
  if zlen (znth t r []) =? 1 then removelast t else zupd t r (removelast (znth t r [])).

Lemma zlen_removelast {A} (l : list A) : 1 <= zlen l -> zlen (removelast l) = zlen l - 1.
Proof. intros H. rewrite removelast_firstn_len. unfold zlen in *. rewrite firstn_length. lia. Qed.

Lemma znth_removelast {A} (l : list A) i d : 0 <= i < zlen l - 1 -> znth (removelast l) i d = znth l i d.
Proof.
  intros H. rewrite removelast_firstn_len. replace (Nat.pred (length l)) with (Z.to_nat (zlen l - 1)) by (unfold zlen; lia).
  apply znth_firstn. lia.
Qed.

Lemma removelast_last_z {A} (l : list A) d : 1 <= zlen l -> removelast l ++ [znth l (zlen l - 1) d] = l.
Proof.
  intros H. apply list_ext with (d := d).
  - rewrite zlen_app, zlen_removelast by lia. change (zlen [znth l (zlen l - 1) d]) with 1. lia.
  - intros i Hi. rewrite zlen_app, zlen_removelast in Hi by lia. change (zlen [znth l (zlen l - 1) d]) with 1 in Hi.
    rewrite znth_app, zlen_removelast by lia. destruct (Z.ltb_spec i (zlen l - 1)).
    + apply znth_removelast. lia.
    + replace i with (zlen l - 1) by lia. rewrite Z.sub_diag. reflexivity.
Qed.

Lemma yadd_yrem n lambda t r : is_part n lambda -> shp t = lambda -> In r (corners lambda) ->
  yadd (yrem t r) r (entry t r (row lambda r - 1)) = t /\ shp (yrem t r) = prem lambda r.
Proof.
  intros Hl Hs Hc. apply in_corners in Hc as (Hr & Hc). assert (ppos lambda) as Pl by eauto.
  assert (zlen t = zlen lambda) as L by (rewrite <- zlen_shp, Hs; reflexivity).
  assert (zlen (znth t r []) = row lambda r) as Lr by (rewrite <- row_shp, Hs; reflexivity).
  pose proof (ppos_row lambda r Pl Hr) as Hpos. rewrite entry_znth, <- Lr.
  unfold yrem. destruct (Z.eqb_spec (zlen (znth t r [])) 1) as [E1|E1].
  - assert (r = zlen t - 1) as Er.
    { destruct (Z.eq_dec r (zlen t - 1)); auto. pose proof (ppos_row lambda (r + 1) Pl ltac:(lia)). lia. }
    split.
    + unfold yadd. rewrite zlen_removelast by lia. destruct (Z.ltb_spec r (zlen t - 1)); [lia|].
      refine (eq_trans _ (removelast_last_z t [] ltac:(lia))). f_equal. f_equal. rewrite <- Er.
      rewrite E1. destruct (znth t r []) as [|x [|y w]] eqn:W; unfold zlen in E1; cbn in E1; try lia. reflexivity.
    + unfold prem. cbv zeta. rewrite row_zupd by lia. destruct (Z.eqb_spec (zlen lambda - 1) r); [|lia].
      rewrite <- Lr, E1. cbn [Z.sub Z.eqb]. rewrite <- Hs. unfold zupd. rewrite zlen_shp, <- Er.
      rewrite firstn_app. rewrite removelast_firstn_len.
      replace (Nat.pred (length t)) with (Z.to_nat r) by (unfold zlen in *; lia).
      unfold shp. rewrite <- firstn_map. rewrite firstn_firstn, firstn_length, map_length.
      replace (Z.to_nat r - Nat.min (Z.to_nat r) (length t))%nat with O by (unfold zlen in *; lia).
      cbn [firstn]. rewrite app_nil_r. change (1 - 1 =? 0) with true. cbv iota. rewrite Nat.min_id. reflexivity.
  - assert (2 <= zlen (znth t r [])) as H2 by lia.
    split.
    + unfold yadd. rewrite zlen_zupd by lia. destruct (Z.ltb_spec r (zlen t)); [|lia].
      rewrite znth_zupd by lia. rewrite Z.eqb_refl. rewrite (removelast_last_z (znth t r []) 0) by lia.
      apply list_ext with (d := []).
      * rewrite !zlen_zupd by (rewrite ?zlen_zupd; lia). reflexivity.
      * intros i Hi. rewrite !znth_zupd by (rewrite ?zlen_zupd in *; try lia; rewrite !zlen_zupd in Hi; rewrite ?zlen_zupd; lia).
        destruct (Z.eqb_spec i r); subst; reflexivity.
    + unfold prem. cbv zeta. unfold shp. rewrite map_zupd. fold (shp t). rewrite Hs, zlen_removelast by lia. rewrite Lr.
      rewrite row_zupd by lia.
      destruct (Z.eqb_spec (if zlen lambda - 1 =? r then row lambda r - 1 else row lambda (zlen lambda - 1)) 0) as [E0|E0]; [|reflexivity].
      exfalso. destruct (Z.eqb_spec (zlen lambda - 1) r); [lia|].
      pose proof (ppos_row lambda (zlen lambda - 1) Pl ltac:(lia)). lia.
Qed.

(* where the largest entry is *)
Lemma standard_largest n lambda t : is_part n lambda -> 1 <= n -> standard lambda t ->
  exists r, In r (corners lambda) /\ entry t r (row lambda r - 1) = n.
Proof.
  intros Hl Hn St. pose proof (is_part_sum _ _ Hl) as Hsum. pose proof (proj1 (has_shape_shp _ _) (proj1 St)) as Hs.
  assert (In n (concat t)) as I.
  { eapply is_perm_onto; [apply St|]. lia. }
  apply In_concat_cell in I as (r & c & Hc & E). rewrite Hs in Hc. pose proof (cell_rows _ _ _ Hc) as Hr.
  pose proof (proj1 (cell_iff _ _ _) Hc) as (H1 & H2).
  assert (c = row lambda r - 1) as Ec.
  { destruct (Z.eq_dec c (row lambda r - 1)); auto. exfalso.
    assert (cell lambda r (c + 1)) as C' by (apply cell_iff; lia).
    pose proof (standard_entry_range _ _ _ _ St C'). destruct St as (_ & _ & Hrow & _).
    specialize (Hrow r c Hc C'). lia. }
  exists r. split; [|congruence]. apply in_corners. split; [auto|].
  destruct (Z_lt_dec (row lambda (r + 1)) (row lambda r)); auto. exfalso.
  assert (cell lambda (r + 1) c) as C' by (apply cell_iff; lia).
  pose proof (standard_entry_range _ _ _ _ St C'). destruct St as (_ & _ & _ & Hcol). specialize (Hcol r c Hc C'). lia.
Qed.

Lemma standard_yrem n lambda t r : is_part n lambda -> In r (corners lambda) -> standard lambda t ->
  entry t r (row lambda r - 1) = n -> standard (prem lambda r) (yrem t r).
Proof.
  intros Hl Hr St En. pose proof (is_part_sum _ _ Hl) as Hsum. pose proof (proj1 (has_shape_shp _ _) (proj1 St)) as Hs.
  destruct (yadd_yrem n lambda t r Hl Hs Hr) as (A & S). rewrite En in A.
  apply in_corners in Hr as (Hr & Hc). assert (ppos lambda) as Pl by eauto. assert (ppos (prem lambda r)) as Pm by (apply ppos_prem; auto).
  pose proof (zlen_prem lambda r Pl Hr) as Lm. assert (zlen (yrem t r) = zlen (prem lambda r)) as L by (rewrite <- zlen_shp, S; reflexivity).
  assert (padd (prem lambda r) r = lambda) as PA by (eapply padd_prem; eauto).
  assert (forall i c, cell (prem lambda r) i c -> entry (yrem t r) i c = entry t i c /\ cell lambda i c) as E1.
  { intros i c C. split.
    - rewrite <- A at 2. apply cell_iff in C. rewrite entry_yadd by lia. rewrite S.
      destruct (Z.eqb_spec i r), (Z.eqb_spec c (row (prem lambda r) r)); cbn [andb]; auto. subst; lia.
    - rewrite <- PA. apply cell_padd; auto. lia. }
  destruct St as (_ & Hp & Hrow & Hcol). split; [|split; [|split]].
  - exact S.
  - rewrite zsum_prem by auto. rewrite Hsum. apply is_perm_cons. replace (n - 1 + 1) with n by lia.
    eapply is_perm_Permutation; [apply (concat_yadd _ r); lia|]. rewrite A. rewrite <- Hsum. exact Hp.
  - intros i c C1 C2. destruct (E1 _ _ C1) as (-> & D1). destruct (E1 _ _ C2) as (-> & D2). auto.
  - intros i c C1 C2. destruct (E1 _ _ C1) as (-> & D1). destruct (E1 _ _ C2) as (-> & D2). auto.
Qed.

(* ---- words: tableaux as sequences of rows, largest entry first ---- *)

Fixpoint tw (w : list Z) : list (list Z) :=
  match w with
  | [] => []
  | r :: w' => yadd (tw w') r (zlen w' + 1)
  end.

Fixpoint paths (k : nat) (lambda : list Z) : list (list Z) :=
  match k with
  | O => [[]]
  | S k' => flat_map (fun r => map (cons r) (paths k' (prem lambda r))) (corners lambda)
  end.

Lemma paths_len k : forall lambda w, In w (paths k lambda) -> length w = k.
Proof.
  induction k as [|k IH]; intros lambda w H; cbn [paths] in H; [destruct H as [<-|[]]; reflexivity|].
  apply in_flat_map in H as (r & Hr & H). apply in_map_iff in H as (w' & <- & H). cbn. f_equal. eauto.
Qed.

Lemma paths_standard k : forall lambda, is_part (Z.of_nat k) lambda ->
  (forall w, In w (paths k lambda) -> standard lambda (tw w)) /\
  (forall t, standard lambda t -> exists w, In w (paths k lambda) /\ tw w = t).
Proof.
  induction k as [|k IH]; intros lambda Hl.
  - apply is_part_0 in Hl. subst lambda. split.
    + intros w [<-|[]]. split; [reflexivity|]. split.
      * split; [reflexivity|split; [intros v []|constructor]].
      * split; intros r c C; apply cell_rows in C; unfold zlen in C; cbn in C; lia.
    + intros t (Hs & _). exists []. split; [left; auto|]. destruct t; [reflexivity|discriminate].
  - assert (forall r, In r (corners lambda) -> is_part (Z.of_nat k) (prem lambda r)) as Hpr.
    { intros r Hr. apply in_corners in Hr as (Hr & Hc). replace (Z.of_nat k) with (Z.of_nat (S k) - 1) by lia. apply is_part_prem; auto. }
    split.
    + intros w H. cbn [paths] in H. apply in_flat_map in H as (r & Hr & H). apply in_map_iff in H as (w' & <- & H).
      pose proof (Hpr r Hr) as Hp. destruct (IH _ Hp) as (I1 & _). specialize (I1 _ H).
      apply paths_len in H. cbn [tw]. replace (zlen w') with (Z.of_nat k) by (unfold zlen; lia).
      apply in_corners in Hr as (Hr & Hc). pose proof (zlen_prem lambda r (is_part_ppos _ _ Hl) Hr).
      assert (padd (prem lambda r) r = lambda) as PA by (eapply padd_prem; eauto). rewrite <- PA at 1.
      apply standard_yadd; auto; [lia|]. eapply prem_extendable; eauto.
    + intros t St. destruct (standard_largest _ _ _ Hl ltac:(lia) St) as (r & Hr & E).
      destruct (IH _ (Hpr r Hr)) as (_ & I2). destruct (I2 (yrem t r)) as (w & Hw & Ew).
      { eapply standard_yrem; eauto. }
      exists (r :: w). split.
      * cbn [paths]. apply in_flat_map. exists r. split; auto. apply in_map. auto.
      * cbn [tw]. rewrite Ew. pose proof (paths_len _ _ _ Hw) as L. replace (zlen w + 1) with (Z.of_nat (S k)) by (unfold zlen; lia).
        destruct (yadd_yrem _ lambda t r Hl (proj1 (has_shape_shp _ _) (proj1 St)) Hr) as (A & _). rewrite E in A. exact A.
Qed.

Lemma NoDup_flat_map {A B} (f : A -> list B) l : NoDup l -> (forall x, In x l -> NoDup (f x)) ->
  (forall x y b, In x l -> In y l -> In b (f x) -> In b (f y) -> x = y) -> NoDup (flat_map f l).
Proof.
  induction l as [|x l IH]; intros H1 H2 H3; cbn; [constructor|]. inv H1.
  assert (NoDup (flat_map f l)) as IH'.
  { apply IH; auto; [intros; apply H2; right; auto|]. intros a b c Ha Hb. apply H3; right; auto. }
  assert (forall b, In b (f x) -> In b (flat_map f l) -> False) as D.
  { intros b Hb K. apply in_flat_map in K as (y & Hy & K). assert (x = y); [|congruence].
    eapply H3; eauto; [left; auto|right; auto]. }
  specialize (H2 x (or_introl eq_refl)). revert H2 D. generalize (f x). induction l0 as [|b l0 IHb]; intros N D; cbn; auto.
  inv N. constructor.
  - rewrite in_app_iff. intros [K|K]; [auto|eapply D; [left; reflexivity|auto]].
  - apply IHb; auto. intros c Hc. apply D. right; auto.
Qed.

Lemma NoDup_paths k : forall lambda, NoDup (paths k lambda).
Proof.
  induction k as [|k IH]; intros lambda; cbn [paths]; [repeat constructor; auto|].
  apply NoDup_flat_map.
  - apply NoDup_corners.
  - intros r _. apply FinFun.Injective_map_NoDup; auto. intros a b E. congruence.
  - intros x y b _ _ Hx Hy. apply in_map_iff in Hx as (u & <- & _). apply in_map_iff in Hy as (v & E & _). congruence.
Qed.

(* different words give different tableaux *)
Lemma tw_inj k : forall lambda w w', is_part (Z.of_nat k) lambda -> In w (paths k lambda) -> In w' (paths k lambda) -> tw w = tw w' -> w = w'.
Proof.
  induction k as [|k IH]; intros lambda w w' Hl Hw Hw' E.
  - cbn in Hw, Hw'. destruct Hw as [<-|[]], Hw' as [<-|[]]. reflexivity.
  - pose proof (proj1 (paths_standard (S k) lambda Hl) _ Hw) as S1. pose proof (proj1 (paths_standard (S k) lambda Hl) _ Hw') as S2.
    cbn [paths] in Hw, Hw'. apply in_flat_map in Hw as (r & Hr & H). apply in_map_iff in H as (u & <- & Hu).
    apply in_flat_map in Hw' as (r' & Hr' & H). apply in_map_iff in H as (u' & <- & Hu').
    assert (forall r u, In r (corners lambda) -> In u (paths k (prem lambda r)) -> standard (prem lambda r) (tw u) ->
       entry (tw (r :: u)) r (row lambda r - 1) = Z.of_nat (S k) /\ zlen u = Z.of_nat k) as F.
    { clear - Hl. intros r u Hr Hu St. apply in_corners in Hr as (Hr & Hc). pose proof (paths_len _ _ _ Hu) as L.
      split; [|unfold zlen; lia]. cbn [tw]. pose proof (zlen_prem lambda r (is_part_ppos _ _ Hl) Hr).
      pose proof (ppos_row lambda r (is_part_ppos _ _ Hl) Hr).
      assert (shp (tw u) = prem lambda r) as Sh by (apply St).
      assert (zlen (tw u) = zlen (prem lambda r)) as L2 by (rewrite <- zlen_shp, Sh; reflexivity).
      rewrite entry_yadd by lia. rewrite Sh, row_prem by (eauto; lia). rewrite !Z.eqb_refl. cbn [andb]. unfold zlen; lia. }
    assert (is_part (Z.of_nat k) (prem lambda r)) as Hp.
    { apply in_corners in Hr as (Hr & Hc). replace (Z.of_nat k) with (Z.of_nat (S k) - 1) by lia. apply is_part_prem; auto. }
    assert (is_part (Z.of_nat k) (prem lambda r')) as Hp'.
    { apply in_corners in Hr' as (Hr' & Hc). replace (Z.of_nat k) with (Z.of_nat (S k) - 1) by lia. apply is_part_prem; auto. }
    pose proof (proj1 (paths_standard k _ Hp) _ Hu) as T1. pose proof (proj1 (paths_standard k _ Hp') _ Hu') as T2.
    destruct (F r u Hr Hu T1) as (F1 & L1). destruct (F r' u' Hr' Hu' T2) as (F2 & L2).
    assert (r = r') as Er.
    { rewrite E in F1. pose proof (proj1 (has_shape_shp _ _) (proj1 S2)) as Sh.
      assert (forall x, In x (corners lambda) -> cell (shp (tw (r' :: u'))) x (row lambda x - 1)) as CC.
      { intros x Hx. rewrite Sh. apply in_corners in Hx as (Hx & _). apply cell_iff.
        pose proof (ppos_row lambda x (is_part_ppos _ _ Hl) Hx). lia. }
      refine (proj1 (entry_inj (tw (r' :: u')) r _ r' _ _ (CC r Hr) (CC r' Hr') _)); [|congruence].
      destruct S2 as (_ & P2 & _). apply P2. }
    subst r'. f_equal. apply (IH (prem lambda r)); auto.
    cbn [tw] in E. rewrite L1, L2 in E.
    apply in_corners in Hr as (Hr & Hc). pose proof (zlen_prem lambda r (is_part_ppos _ _ Hl) Hr).
    assert (shp (tw u) = prem lambda r) as Sh1 by (apply T1). assert (shp (tw u') = prem lambda r) as Sh2 by (apply T2).
    assert (zlen (tw u) = zlen (prem lambda r)) as L3 by (rewrite <- zlen_shp, Sh1; reflexivity).
    assert (zlen (tw u') = zlen (prem lambda r)) as L4 by (rewrite <- zlen_shp, Sh2; reflexivity).
    apply tab_ext; [congruence|]. intros i c C. rewrite Sh1 in C. pose proof C as C'. apply cell_iff in C'.
    assert (entry (yadd (tw u) r (Z.of_nat k + 1)) i c = entry (yadd (tw u') r (Z.of_nat k + 1)) i c) as EE by (rewrite E; reflexivity).
    rewrite !entry_yadd in EE by lia. rewrite Sh1, Sh2 in EE.
    destruct (Z.eqb_spec i r), (Z.eqb_spec c (row (prem lambda r) r)); cbn [andb] in EE; auto. subst; lia.
Qed.
