(* Standard tableaux: contents determine the tableau, and adjacent exchanges connect all tableaux of a shape. *)
From Coq Require Import ZArith List Bool Lia ZifyBool ZifyNat Reals Lra.
From Verif Require Import Model_Base Model_Perm Model_Part Model_Comb Model_Tab Model_Irrep.
From Verif Require Import Spec_Perm Spec_Part Spec_Tab Spec_Rep.
From Verif Require Import Proof_Base Proof_Perm Proof_Part Proof_PartProps Proof_Tab Proof_TabProps Proof_Yor.
Import ListNotations.
Open Scope Z_scope.

Lemma in_corners_row n l r : is_part n l -> (In r (corners l) <-> 0 <= r /\ row l (r + 1) < row l r).
Proof.
  intros P. rewrite in_corners. pose proof (is_part_ppos _ _ P) as Pp. split; [lia|]. intros (H & K). split; [|auto].
  destruct (Z_lt_dec r (zlen l)); [lia|]. rewrite (row_out l r) in K by lia. pose proof (ppos_row_nonneg l (r + 1) Pp). lia.
Qed.

Lemma corner_part n l r : is_part n l -> In r (corners l) -> is_part (n - 1) (prem l r).
Proof. intros P Hr. apply in_corners in Hr as (A & B). apply is_part_prem; auto. Qed.

Lemma corner_row n l r i : is_part n l -> In r (corners l) -> 0 <= i -> row (prem l r) i = row l i - (if i =? r then 1 else 0).
Proof. intros P Hr Hi. apply in_corners in Hr as (A & B). apply row_prem; eauto. Qed.

Lemma corner_exists n l : is_part n l -> 1 <= n -> exists r, In r (corners l).
Proof.
  intros P Hn. pose proof (is_part_ppos _ _ P) as Pp. assert (1 <= zlen l) as L.
  { destruct l as [|x l]; [|unfold zlen; cbn [length]; lia]. pose proof (is_part_sum _ _ P) as S. cbn in S. lia. }
  exists (zlen l - 1). apply in_corners. split; [lia|]. replace (zlen l - 1 + 1) with (zlen l) by lia.
  rewrite (row_out l (zlen l)) by lia. pose proof (ppos_row l (zlen l - 1) Pp). lia.
Qed.

Lemma corner_len n l r t : is_part n l -> In r (corners l) -> standard (prem l r) t -> 0 <= r <= zlen t.
Proof.
  intros P Hr S. apply in_corners in Hr as (A & B). pose proof (zlen_prem l r (is_part_ppos _ _ P) A).
  rewrite <- zlen_shp, (proj1 (has_shape_shp _ _) (proj1 S)). lia.
Qed.

Lemma corner_standard n l r t : is_part n l -> In r (corners l) -> standard (prem l r) t -> standard l (yadd t r n).
Proof.
  intros P Hr S. pose proof (corner_part n l r P Hr) as Pp. apply in_corners in Hr as (A & B).
  pose proof (zlen_prem l r (is_part_ppos _ _ P) A). rewrite <- (padd_prem n l r P A B) at 1.
  replace n with (n - 1 + 1) at 1 by lia. apply standard_yadd; auto; [lia|]. eapply prem_extendable; eauto.
Qed.

Lemma standard_split n l t : is_part n l -> 1 <= n -> standard l t -> exists r u, In r (corners l) /\ standard (prem l r) u /\ t = yadd u r n.
Proof.
  intros P Hn S. destruct (standard_largest n l t P Hn S) as (r & Hr & E). exists r, (yrem t r). split; auto. split; [eapply standard_yrem; eauto|].
  destruct (yadd_yrem n l t r P (proj1 (has_shape_shp _ _) (proj1 S)) Hr) as (A & _). rewrite E in A. auto.
Qed.

Lemma standard_exists k : forall l, is_part (Z.of_nat k) l -> exists t, standard l t.
Proof.
  induction k as [|k IH]; intros l P.
  - destruct (paths_standard 0 l P) as (A & _). exists (tw []). apply A. left. auto.
  - destruct (corner_exists _ _ P ltac:(lia)) as (r & Hr). pose proof (corner_part _ _ _ P Hr) as Pr. replace (Z.of_nat (S k) - 1) with (Z.of_nat k) in Pr by lia.
    destruct (IH _ Pr) as (t & St). exists (yadd t r (Z.of_nat (S k))). apply (corner_standard _ _ _ _ P Hr St).
Qed.

(* contents in an extended tableau *)
Lemma cont_yadd n l r t v : is_part n l -> 1 <= n -> In r (corners l) -> standard (prem l r) t -> 1 <= v <= n ->
  cont (yadd t r n) v = if v =? n then row l r - 1 - r else cont t v.
Proof.
  intros P Hn Hr S Hv. pose proof (corner_standard n l r t P Hr S) as S'. pose proof (corner_part n l r P Hr) as Pr.
  pose proof (standard_fill _ _ _ P S') as F'. pose proof (proj1 (has_shape_shp _ _) (proj1 S')) as Hs'. pose proof (proj1 (has_shape_shp _ _) (proj1 S)) as Hs.
  pose proof (corner_len n l r t P Hr S) as L. pose proof (corner_row n l r r P Hr ltac:(lia)) as Rr. rewrite Z.eqb_refl in Rr.
  pose proof (ppos_row_nonneg (prem l r) r (is_part_ppos _ _ Pr)).
  destruct (Z.eqb_spec v n) as [->|Nv].
  - assert (entry (yadd t r n) r (row l r - 1) = n) as E.
    { rewrite entry_yadd by lia. rewrite Hs, Rr, !Z.eqb_refl. reflexivity. }
    rewrite <- E at 2. rewrite cont_cell; [lia|apply F'|]. rewrite Hs'. apply cell_iff. lia.
  - destruct (standard_pos (n - 1) (prem l r) t v Pr S ltac:(lia)) as (i & c & C & E & D). rewrite D.
    pose proof (proj1 (cell_iff _ _ _) C) as C'.
    assert (entry (yadd t r n) i c = v) as E'.
    { rewrite entry_yadd by lia. rewrite Hs. destruct (Z.eqb_spec i r), (Z.eqb_spec c (row (prem l r) r)); cbn [andb]; auto. subst. lia. }
    rewrite <- E' at 1. rewrite cont_cell; [lia|apply F'|]. rewrite Hs'. apply cell_iff. rewrite (corner_row n l r i P Hr) in C' by lia. destruct (Z.eqb_spec i r); lia.
Qed.

Lemma content_inj n l r r' : is_part n l -> 0 <= r -> 0 <= r' -> row l r - r = row l r' - r' -> r = r'.
Proof.
  intros P A B E. destruct (Z_lt_dec r r'); [pose proof (is_part_anti n l r r' P); lia|].
  destruct (Z_lt_dec r' r); [pose proof (is_part_anti n l r' r P); lia|lia].
Qed.

(* the contents of 1..n determine the tableau *)
Lemma contents_determine k : forall l l' t t', is_part (Z.of_nat k) l -> is_part (Z.of_nat k) l' -> standard l t -> standard l' t' ->
  (forall v, 1 <= v <= Z.of_nat k -> cont t v = cont t' v) -> l = l' /\ t = t'.
Proof.
  induction k as [|k IH]; intros l l' t t' P P' S S' H.
  - apply is_part_0 in P. apply is_part_0 in P'. subst. split; auto.
    destruct S as (S & _), S' as (S' & _). unfold has_shape in *. destruct t, t'; try discriminate; auto.
  - set (n := Z.of_nat (Datatypes.S k)) in *. assert (1 <= n) as Hn by (unfold n; lia).
    destruct (standard_split n l t P Hn S) as (r & u & Hr & Su & ->). destruct (standard_split n l' t' P' Hn S') as (r' & u' & Hr' & Su' & ->).
    pose proof (corner_part n l r P Hr) as Pr. pose proof (corner_part n l' r' P' Hr') as Pr'.
    replace (n - 1) with (Z.of_nat k) in Pr, Pr' by (unfold n; lia).
    destruct (IH _ _ u u' Pr Pr' Su Su') as (El & Eu).
    { intros v Hv. specialize (H v ltac:(unfold n; lia)). rewrite (cont_yadd n l), (cont_yadd n l') in H by (auto; unfold n; lia).
      destruct (Z.eqb_spec v n); [unfold n in *; lia|]. auto. }
    specialize (H n ltac:(lia)). rewrite (cont_yadd n l), (cont_yadd n l') in H by (auto; lia). rewrite Z.eqb_refl in H.
    assert (0 <= r) as R0 by (apply in_corners in Hr; lia). assert (0 <= r') as R0' by (apply in_corners in Hr'; lia).
    pose proof (corner_row n l r r P Hr R0) as A. pose proof (corner_row n l' r' r' P' Hr' R0') as A'. rewrite Z.eqb_refl in A, A'.
    assert (r = r') as E by (apply (content_inj _ (prem l r) r r' Pr); auto; rewrite El at 2; lia). subst r' u'. split; auto.
    apply in_corners in Hr as (B1 & B2). apply in_corners in Hr' as (B1' & B2').
    rewrite <- (padd_prem n l r P B1 B2), <- (padd_prem n l' r P' B1' B2'), El. reflexivity.
Qed.

(* ---- exchanges ---- *)

Lemma tswap_yadd i j t r v : 0 <= r <= zlen t -> tswap i j (yadd t r v) = yadd (tswap i j t) r (swp i j v).
Proof.
  intros H. unfold yadd. unfold tswap at 2. rewrite zlen_map. destruct (Z.ltb_spec r (zlen t)).
  - unfold tswap. rewrite map_zupd. f_equal. rewrite map_app. cbn [map]. rewrite (znth_map _ _ _ []) by lia. reflexivity.
  - unfold tswap. rewrite map_app. reflexivity.
Qed.

Lemma tswap_out n t i j : fill n t -> (forall v, 1 <= v <= n -> v <> i /\ v <> j) -> tswap i j t = t.
Proof.
  intros F H. unfold tswap. rewrite <- (map_id t) at 2. apply map_ext_in. intros r Hr. rewrite <- (map_id r) at 2. apply map_ext_in.
  intros v Hv. assert (In v (concat t)) as I by (apply in_concat; eauto). apply F in I. apply swp_3; apply H; auto.
Qed.

Lemma connected {A} k : forall l (N : list (list Z) -> A), is_part (Z.of_nat k) l ->
  (forall t i, standard l t -> 1 <= i < Z.of_nat k -> standard l (tswap i (i + 1) t) -> N (tswap i (i + 1) t) = N t) ->
  forall t t', standard l t -> standard l t' -> N t = N t'.
Proof.
  induction k as [|k IH]; intros l N P H t t' S S'.
  - apply is_part_0 in P. subst. destruct S as (S & _), S' as (S' & _). unfold has_shape in *. destruct t, t'; try discriminate; auto.
  - set (n := Z.of_nat (Datatypes.S k)) in *. assert (1 <= n) as Hn by (unfold n; lia).
    assert (forall r u u', In r (corners l) -> standard (prem l r) u -> standard (prem l r) u' -> N (yadd u r n) = N (yadd u' r n)) as Same.
    { intros r u u' Hr Su Su'. pose proof (corner_part n l r P Hr) as Pr. replace (n - 1) with (Z.of_nat k) in Pr by (unfold n; lia).
      apply (IH (prem l r) (fun u => N (yadd u r n)) Pr); auto. intros v i Sv Hi Sv'.
      assert (tswap i (i + 1) (yadd v r n) = yadd (tswap i (i + 1) v) r n) as E.
      { rewrite tswap_yadd by (exact (corner_len n l r v P Hr Sv)). rewrite swp_3 by (unfold n; lia). reflexivity. }
      rewrite <- E. apply H; [apply (corner_standard n l r); auto|unfold n; lia|]. rewrite E. apply (corner_standard n l r); auto. }
    destruct (standard_split n l t P Hn S) as (r & u & Hr & Su & ->). destruct (standard_split n l t' P Hn S') as (r' & u' & Hr' & Su' & ->).
    destruct (Z.eq_dec r r') as [<-|Ne]; [apply Same; auto|].
    pose proof (corner_part n l r P Hr) as Pr. pose proof (corner_part n l r' P Hr') as Pr'.
    assert (0 <= r) as R0 by (apply in_corners in Hr; lia). assert (0 <= r') as R0' by (apply in_corners in Hr'; lia).
    assert (In r' (corners (prem l r))) as C1.
    { apply (in_corners_row (n - 1)); auto. split; auto. rewrite !(corner_row n l r) by (auto; lia). apply in_corners in Hr' as (_ & K). destruct (Z.eqb_spec (r' + 1) r), (Z.eqb_spec r' r); lia. }
    assert (In r (corners (prem l r'))) as C2.
    { apply (in_corners_row (n - 1)); auto. split; auto. rewrite !(corner_row n l r') by (auto; lia). apply in_corners in Hr as (_ & K). destruct (Z.eqb_spec (r + 1) r'), (Z.eqb_spec r r'); lia. }
    pose proof (corner_part _ _ _ Pr C1) as P1. pose proof (corner_part _ _ _ Pr' C2) as P2.
    assert (prem (prem l r) r' = prem (prem l r') r) as Comm.
    { apply ppos_ext; [eapply is_part_ppos; eauto|eapply is_part_ppos; eauto|]. intros i Hi.
      rewrite (corner_row (n - 1) (prem l r) r'), (corner_row n l r), (corner_row (n - 1) (prem l r') r), (corner_row n l r') by (auto; lia). lia. }
    assert (2 <= n) as Hn2 by (pose proof (is_part_nonneg _ _ P1); lia).
    destruct (standard_exists (Z.to_nat (n - 1 - 1)) (prem (prem l r) r')) as (v & Sv); [replace (Z.of_nat (Z.to_nat (n - 1 - 1))) with (n - 1 - 1) by lia; auto|].
    pose proof (corner_standard (n - 1) (prem l r) r' v Pr C1 Sv) as S1. pose proof Sv as Sv'. rewrite Comm in Sv'.
    pose proof (corner_standard (n - 1) (prem l r') r v Pr' C2 Sv') as S2.
    pose proof (corner_len _ _ _ _ P Hr S1) as L1. pose proof (corner_len _ _ _ _ P Hr' S2) as L2.
    pose proof (corner_len _ _ _ _ Pr C1 Sv) as L3. pose proof (corner_len _ _ _ _ Pr' C2 Sv') as L4.
    assert (tswap (n - 1) (n - 1 + 1) (yadd (yadd v r' (n - 1)) r n) = yadd (yadd v r (n - 1)) r' n) as E.
    { rewrite !tswap_yadd by lia. replace (n - 1 + 1) with n by lia. assert (swp (n - 1) n (n - 1) = n) as -> by (unfold swp; zcases).
      assert (swp (n - 1) n n = n - 1) as -> by (unfold swp; zcases).
      rewrite (tswap_out (n - 1 - 1)) by (try (eapply standard_fill; eauto); intros; lia).
      assert (forall x, shp (yadd v r' x) = prem l r) as Sh1.
      { intros x. rewrite shp_yadd by lia. rewrite (proj1 (has_shape_shp _ _) (proj1 Sv)). apply in_corners in C1 as (K1 & K2). eapply padd_prem; eauto. }
      assert (forall x, shp (yadd v r x) = prem l r') as Sh2.
      { intros x. rewrite shp_yadd by lia. rewrite (proj1 (has_shape_shp _ _) (proj1 Sv')). apply in_corners in C2 as (K1 & K2). eapply padd_prem; eauto. }
      assert (forall x y, shp (yadd (yadd v r' x) r y) = l) as Sh3.
      { intros x y. rewrite shp_yadd by (rewrite <- zlen_shp, Sh1; rewrite <- zlen_shp, Sh1 in L1; lia). rewrite Sh1. apply in_corners in Hr as (K1 & K2). eapply padd_prem; eauto. }
      assert (forall x y, shp (yadd (yadd v r x) r' y) = l) as Sh4.
      { intros x y. rewrite shp_yadd by (rewrite <- zlen_shp, Sh2; rewrite <- zlen_shp, Sh2 in L2; lia). rewrite Sh2. apply in_corners in Hr' as (K1 & K2). eapply padd_prem; eauto. }
      apply tab_ext.
      - rewrite Sh3, Sh4. reflexivity.
      - intros i c C. rewrite Sh3 in C. apply cell_iff in C.
        rewrite (entry_yadd (yadd v r' n)) by (try lia; rewrite <- zlen_shp, Sh1; rewrite <- zlen_shp, Sh1 in L1; lia).
        rewrite (entry_yadd (yadd v r (n - 1))) by lia. rewrite Sh1, Sh2, !(entry_yadd v) by lia.
        rewrite (proj1 (has_shape_shp _ _) (proj1 Sv)).
        rewrite (corner_row (n - 1) (prem l r) r') by auto. rewrite Comm.
        rewrite (corner_row (n - 1) (prem l r') r) by auto. rewrite !(corner_row n l r), !(corner_row n l r') by auto.
        rewrite !Z.eqb_refl. destruct (Z.eqb_spec r r'); [lia|]. destruct (Z.eqb_spec r' r); [lia|]. zcases; cbn [andb]; try reflexivity; lia. }
    rewrite (Same r u (yadd v r' (n - 1)) Hr Su S1). rewrite (Same r' u' (yadd v r (n - 1)) Hr' Su' S2). rewrite <- E. symmetry. apply H.
    + apply (corner_standard n l r); auto.
    + lia.
    + rewrite E. apply (corner_standard n l r'); auto.
Qed.
