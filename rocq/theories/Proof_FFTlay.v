(* The layout of the transform: which parts the levels have, in which order, with which blocks (C44). *)
From Coq Require Import ZArith List Bool Lia ZifyBool ZifyNat Reals Sorted Permutation.
From Verif Require Import Model_Base Model_Perm Model_Sn Model_Part Model_Comb Model_Tab Model_Irrep Model_Fun Model_FFT.
From Verif Require Import Spec_Perm Spec_Part Spec_Tab Spec_Rep Spec_Four.
From Verif Require Import Proof_Base Proof_Perm Proof_Sn Proof_Part Proof_PartProps Proof_Tab Proof_TabProps Proof_Cycles Proof_Cox Proof_Yor Proof_Sum
  Proof_Irrep Proof_Rep Proof_Mat Proof_IrrepProps Proof_JM Proof_Conn Proof_Schur Proof_Restr Proof_UpDown.
Import ListNotations.
Open Scope Z_scope.

Local Notation pdec := (list_eq_dec Z.eq_dec).

(* ---- lists of partitions ---- *)

(* position of a partition in a list *)
Fixpoint pix (v : list Z) (l : list (list Z)) : Z :=
  match l with [] => 0 | x :: l' => if pdec x v then 0 else pix v l' + 1 end.

Lemma pix_nonneg v l : 0 <= pix v l.
Proof. induction l; cbn; [lia|destruct (pdec a v); lia]. Qed.

Lemma pix_In v l : In v l -> 0 <= pix v l < zlen l /\ znth l (pix v l) [] = v.
Proof.
  induction l as [|x l IH]; intros H; [destruct H|]. rewrite zlen_cons. cbn [pix]. pose proof (zlen_nonneg l). destruct (pdec x v) as [->|N].
  - split; [lia|reflexivity].
  - destruct H as [->|H]; [contradiction|]. destruct (IH H) as (B & E). split; [lia|]. rewrite znth_cons by lia.
    destruct (Z.eqb_spec (pix v l + 1) 0); [lia|]. replace (pix v l + 1 - 1) with (pix v l) by lia. auto.
Qed.

Lemma pix_znth l i : NoDup l -> 0 <= i < zlen l -> pix (znth l i []) l = i.
Proof.
  intros HN Hi. destruct (pix_In (znth l i []) l) as (B & E); [apply znth_In; lia|]. eapply (NoDup_znth l []); eauto.
Qed.

Lemma pix_app v l l' : In v l -> pix v (l ++ l') = pix v l.
Proof.
  induction l as [|x l IH]; intros H; [destruct H|]. cbn [pix app]. destruct (pdec x v); auto. destruct H as [->|H]; [contradiction|]. rewrite IH; auto.
Qed.

Lemma pix_snoc v l : ~ In v l -> pix v (l ++ [v]) = zlen l.
Proof.
  induction l as [|x l IH]; intros H.
  - cbn. destruct (pdec v v); [reflexivity|contradiction].
  - cbn [pix app]. rewrite zlen_cons. destruct (pdec x v) as [->|N]; [destruct H; left; auto|]. rewrite IH; [reflexivity|]. intros K; apply H; right; auto.
Qed.

(* two sorted lists with the same elements are equal *)
Lemma sorted_unique (l l' : list (list Z)) : StronglySorted lex_greater l -> StronglySorted lex_greater l' -> (forall x, In x l <-> In x l') -> l = l'.
Proof.
  revert l'. induction l as [|x l IH]; intros l' S S' E.
  - destruct l' as [|y l']; auto. exfalso. apply (proj2 (E y)); left; auto.
  - destruct l' as [|y l']; [exfalso; apply (proj1 (E x)); left; auto|]. inversion S as [|a b S1 F1]; inversion S' as [|a' b' S1' F1']; subst. rewrite Forall_forall in F1, F1'.
    assert (x = y) as <-.
    { destruct (proj1 (E x) (or_introl eq_refl)) as [H|H]; [auto|]. destruct (proj2 (E y) (or_introl eq_refl)) as [K|K]; [auto|].
      exfalso. apply (lex_irrefl x). eapply lex_trans; [apply F1; exact K|apply F1'; exact H]. }
    f_equal. apply IH; auto. intros z. split; intros Hz.
    + destruct (proj1 (E z) (or_intror Hz)) as [<-|H]; auto. exfalso. apply (lex_irrefl x). auto.
    + destruct (proj2 (E z) (or_intror Hz)) as [<-|H]; auto. exfalso. apply (lex_irrefl x). auto.
Qed.

(* the distinct elements in the order of their first occurrence *)
Definition ddstep (acc : list (list Z)) (x : list Z) : list (list Z) := if in_dec pdec x acc then acc else acc ++ [x].
Definition dd (l : list (list Z)) : list (list Z) := fold_left ddstep l [].

Lemma dd_snoc l x : dd (l ++ [x]) = ddstep (dd l) x.
Proof. unfold dd. rewrite fold_left_app. reflexivity. Qed.

Lemma fold_ddstep l acc : NoDup l -> fold_left ddstep l acc = acc ++ filter (fun x => if in_dec pdec x acc then false else true) l.
Proof.
  revert acc. induction l as [|x l IH]; intros acc N; [cbn; rewrite app_nil_r; reflexivity|]. inversion N as [|a b Nx N']; subst. cbn [fold_left filter]. rewrite IH by auto.
  unfold ddstep. destruct (in_dec pdec x acc) as [I|I]; auto. rewrite <- app_assoc. cbn [app]. do 2 f_equal. apply filter_ext_in. intros y Hy.
  destruct (in_dec pdec y (acc ++ [x])) as [J|J], (in_dec pdec y acc) as [K|K]; auto.
  - apply in_app_iff in J as [J|[->|[]]]; contradiction.
  - destruct J. apply in_app_iff. auto.
Qed.

Lemma NoDup_dd l : NoDup (dd l).
Proof.
  induction l as [|x l IH] using rev_ind; [constructor|]. rewrite dd_snoc. unfold ddstep. destruct (in_dec pdec x (dd l)); auto.
  apply NoDup_rev in IH. rewrite <- (rev_involutive (dd l ++ [x])). apply NoDup_rev. rewrite rev_app_distr. cbn. constructor; auto. rewrite <- in_rev. auto.
Qed.

Lemma in_dd l x : In x (dd l) <-> In x l.
Proof.
  induction l as [|y l IH] using rev_ind; [reflexivity|]. rewrite dd_snoc, in_app_iff. unfold ddstep. destruct (in_dec pdec y (dd l)) as [I|I].
  - rewrite IH. split; [auto|]. intros [H|[->|[]]]; [auto|]. apply IH; auto.
  - rewrite in_app_iff, IH. reflexivity.
Qed.

Lemma rd_last {A} (l : list A) x k : k = zlen l -> rd (l ++ [x]) k = Ret x.
Proof.
  intros ->. pose proof (zlen_nonneg l). rewrite (rd_ok _ _ x) by (rewrite zlen_app; change (zlen [x]) with 1; lia). rewrite znth_app by lia. rewrite Z.ltb_irrefl, Z.sub_diag. reflexivity.
Qed.

Lemma wr_last {A} (l : list A) x y k : k = zlen l -> wr (l ++ [x]) k y = Ret (l ++ [y]).
Proof.
  intros ->. pose proof (zlen_nonneg l). unfold wr. rewrite zlen_app. change (zlen [x]) with 1. replace ((0 <=? zlen l) && (zlen l <? zlen l + 1)) with true by lia.
  unfold zlen. rewrite Nat2Z.id. rewrite firstn_app, firstn_all, Nat.sub_diag. cbn [firstn]. rewrite app_nil_r, skipn_all2 by (rewrite app_length; cbn; lia). reflexivity.
Qed.

(* ---- building a level from a list of additions ---- *)

Definition tpart0 (n : Z) (l : list Z) (ix : Z) : tpart := mkTpart ix (io_d (mkirr n l)) 0 0 (mkirr n l) [].
Definition lam (p : tpart) : list Z := io_lambda (tp_irr p).

Definition subsof (E : list (list Z * tpart)) (l : list Z) : list tpart := map snd (filter (fun e => if pdec (fst e) l then true else false) E).
Definition keys (E : list (list Z * tpart)) : list (list Z) := dd (map fst E).
Definition lpart (n : Z) (E : list (list Z * tpart)) (l : list Z) : tpart := fold_left tpart_add (subsof E l) (tpart0 n l (pix l (keys E))).
Definition lstate (n : Z) (E : list (list Z * tpart)) : tlev := mkTlev n (map (lpart n E) (keys E)) (map (fun l => (l, pix l (keys E))) (keys E)).

Lemma subsof_snoc E l s k : subsof (E ++ [(l, s)]) k = subsof E k ++ (if pdec l k then [s] else []).
Proof. unfold subsof. rewrite filter_app, map_app. cbn [filter fst]. destruct (pdec l k); reflexivity. Qed.

Lemma subsof_nil E l : ~ In l (map fst E) -> subsof E l = [].
Proof.
  intros H. unfold subsof. induction E as [|(k, s) E IH]; [reflexivity|]. cbn [filter fst]. cbn [map fst] in H. destruct (pdec k l) as [->|]; [destruct H; left; auto|].
  apply IH. intros K; apply H; right; auto.
Qed.

Lemma pm_find_ok n (g : list Z -> Z) ks l : (forall k, In k ks -> is_part n k) -> is_part n l ->
  pm_find (map (fun k => (k, g k)) ks) l = Ret (if in_dec pdec l ks then Some (g l) else None).
Proof.
  intros H P. induction ks as [|k ks IH]; [reflexivity|]. cbn [map pm_find]. assert (is_part n k) as Pk by (apply H; left; auto).
  destruct (ip_lt_ok n k l Pk P) as (a & Ea & Ha). destruct (ip_lt_ok n l k P Pk) as (b & Eb & Hb). rewrite Ea, Eb. cbn [bind].
  rewrite IH by (intros; apply H; right; auto). destruct (pdec k l) as [->|N].
  - assert (a = false) as ->. { destruct a; auto. destruct (lex_irrefl l). tauto. } assert (b = false) as ->. { destruct b; auto. destruct (lex_irrefl l). tauto. }
    cbn [negb andb]. destruct (in_dec pdec l (l :: ks)) as [_|K]; [reflexivity|]. destruct K; left; auto.
  - assert (negb a && negb b = false) as ->.
    { destruct (lex_total k l) as [K|[K|K]]; eauto using is_part_ppos; [rewrite (is_part_sum _ _ Pk), (is_part_sum _ _ P); auto| |contradiction|].
      - rewrite (proj2 Ha K). reflexivity.
      - rewrite (proj2 Hb K). destruct a; reflexivity. }
    destruct (in_dec pdec l ks) as [I|I], (in_dec pdec l (k :: ks)) as [J|J]; auto.
    + destruct J; right; auto.
    + destruct J as [J|J]; contradiction.
Qed.

Lemma add_sub_ok n E l s : 1 <= n -> (forall k, In k (map fst E) -> is_part n k) -> is_part n l ->
  tlev_add_sub (lstate n E) l s = Ret (lstate n (E ++ [(l, s)])).
Proof.
  intros Hn HE P. unfold tlev_add_sub, tlev_get_part. cbn [lstate tl_map tl_parts tl_n].
  rewrite (pm_find_ok n) by (auto; intros k Hk; apply HE; apply in_dd; auto). cbn [bind].
  assert (keys (E ++ [(l, s)]) = ddstep (keys E) l) as K by (unfold keys; rewrite map_app; apply dd_snoc).
  unfold lstate. rewrite K. unfold ddstep. destruct (in_dec pdec l (keys E)) as [I|I].
  - cbn [bind tl_parts tl_n tl_map]. destruct (pix_In l (keys E) I) as (B & V).
    rewrite (rd_ok _ _ (lpart n E [])) by (rewrite zlen_map; auto). rewrite (znth_map _ _ _ []) by auto. rewrite V. cbn [bind].
    rewrite wr_ok by (rewrite zlen_map; auto). cbn [bind]. do 2 f_equal. apply (list_ext _ _ (lpart n E [])).
    + rewrite zlen_zupd by (rewrite zlen_map; auto). rewrite !zlen_map. reflexivity.
    + rewrite zlen_zupd by (rewrite zlen_map; auto). rewrite zlen_map. intros i Hi. rewrite znth_zupd by (rewrite ?zlen_map; lia).
      rewrite (znth_map (lpart n (E ++ [(l, s)])) _ _ []) by auto. rewrite (znth_map (lpart n E) _ _ []) by auto.
      unfold lpart. rewrite subsof_snoc, K. unfold ddstep. destruct (in_dec pdec l (keys E)); [|contradiction].
      destruct (Z.eqb_spec i (pix l (keys E))) as [->|N].
      * rewrite V. destruct (pdec l l); [|contradiction]. rewrite fold_left_app. reflexivity.
      * destruct (pdec l (znth (keys E) i [])) as [E2|]; [|rewrite app_nil_r; reflexivity]. exfalso. apply N. rewrite E2. symmetry. apply pix_znth; auto. apply NoDup_dd.
  - unfold tpart_new. destruct (mkirr_ok n l P Hn) as (-> & _). cbn [bind tl_parts tl_n tl_map]. rewrite zlen_map.
    rewrite rd_last by (rewrite zlen_map; auto). cbn [bind]. rewrite wr_last by (rewrite zlen_map; auto). cbn [bind].
    assert (forall k, In k (keys E) -> lpart n (E ++ [(l, s)]) k = lpart n E k) as L1.
    { intros k Hk. unfold lpart. rewrite subsof_snoc, K. unfold ddstep. destruct (in_dec pdec l (keys E)); [contradiction|]. rewrite pix_app by auto.
      destruct (pdec l k) as [->|]; [contradiction|]. rewrite app_nil_r. reflexivity. }
    assert (lpart n (E ++ [(l, s)]) l = tpart_add (tpart0 n l (zlen (keys E))) s) as L2.
    { unfold lpart. rewrite subsof_snoc, K. unfold ddstep. destruct (in_dec pdec l (keys E)); [contradiction|]. rewrite pix_snoc by auto.
      rewrite subsof_nil by (intros H; apply I; apply in_dd; auto). destruct (pdec l l); [|contradiction]. reflexivity. }
    f_equal. f_equal.
    + rewrite map_app. cbn [map]. rewrite L2. rewrite (map_ext_in _ _ _ L1). reflexivity.
    + rewrite map_app. cbn [map]. rewrite pix_snoc by auto. f_equal. apply map_ext_in. intros k Hk. rewrite pix_app by auto. reflexivity.
Qed.

Lemma add_subs_ok n E E' : 1 <= n -> (forall k, In k (map fst (E ++ E')) -> is_part n k) ->
  foldM (fun e L => tlev_add_sub L (fst e) (snd e)) E' (lstate n E) = Ret (lstate n (E ++ E')).
Proof.
  intros Hn. revert E. induction E' as [|(l, s) E' IH]; intros E H; [rewrite app_nil_r; reflexivity|]. cbn [foldM fst snd].
  rewrite map_app in H. rewrite add_sub_ok; auto.
  - cbn [bind]. rewrite IH; [rewrite <- app_assoc; reflexivity|]. intros k Hk. rewrite <- app_assoc in Hk. cbn [app] in Hk. rewrite map_app in Hk. auto.
  - intros k Hk. apply H. apply in_app_iff. auto.
  - apply H. apply in_app_iff. right. left. reflexivity.
Qed.

(* ---- the additions made for the parts of the previous level ---- *)

Definition events (p : tpart) : list (list Z * tpart) := map (fun r => (padd (lam p) r, p)) (adds (lam p)).

Lemma foldM_map {S I J} (f : I -> J) (body : J -> S -> outcome S) l s : foldM body (map f l) s = foldM (fun i => body (f i)) l s.
Proof. revert s. induction l as [|x l IH]; intros s; [reflexivity|]. cbn [map foldM]. destruct (body (f x) s); cbn [bind]; auto. Qed.

Lemma foldM_cond {S I} (b : I -> bool) (body : I -> S -> outcome S) l s : foldM (fun i s => if b i then body i s else Ret s) l s = foldM body (filter b l) s.
Proof. revert s. induction l as [|x l IH]; intros s; [reflexivity|]. cbn [foldM filter]. destruct (b x); cbn [foldM bind]; [destruct (body x s); cbn [bind]; auto|auto]. Qed.

Lemma extend_events n p L : is_part n (lam p) -> 1 <= n -> tlev_extend p L = foldM (fun e L => tlev_add_sub L (fst e) (snd e)) (events p) L.
Proof.
  intros P Hn. unfold tlev_extend, events. fold (lam p). rewrite foldM_map. unfold adds. pose proof (part_len_pos n _ P Hn) as Hk.
  rewrite zrange_snoc by lia. rewrite filter_app, foldM_app. cbn [filter].
  replace ((zlen (lam p) =? 0) || (row (lam p) (zlen (lam p)) <? row (lam p) (zlen (lam p) - 1))) with true.
  2:{ rewrite (row_out (lam p) (zlen (lam p))) by lia. pose proof (ppos_row (lam p) (zlen (lam p) - 1) (is_part_ppos _ _ P) ltac:(lia)). lia. }
  rewrite <- foldM_cond. unfold zfor.
  rewrite (foldM_ext _ (fun i s => if (i =? 0) || (row (lam p) i <? row (lam p) (i - 1)) then tlev_add_sub s (fst (padd (lam p) i, p)) (snd (padd (lam p) i, p)) else Ret s)).
  - destruct (foldM _ _ L) as [L'| | |]; cbn [bind]; auto. cbn [foldM fst snd]. rewrite ip_add_ok by lia. cbn [bind]. destruct (tlev_add_sub L' (padd (lam p) (zlen (lam p))) p); reflexivity.
  - intros i s Hi. apply in_zrange in Hi. rewrite (rd_ok _ i 0) by lia. cbn [bind]. change (znth (lam p) i 0) with (row (lam p) i). cbn [fst snd].
    assert (wr (lam p) i (row (lam p) i + 1) = Ret (padd (lam p) i)) as W. { rewrite wr_ok by lia. unfold padd. destruct (Z.ltb_spec i (zlen (lam p))); [reflexivity|lia]. }
    rewrite W. destruct (Z.eqb_spec i 0) as [E|E]; [reflexivity|]. rewrite (rd_ok _ (i - 1) 0) by lia. cbn [bind orb]. change (znth (lam p) (i - 1) 0) with (row (lam p) (i - 1)).
    destruct (row (lam p) i <? row (lam p) (i - 1)); reflexivity.
Qed.

Lemma foldM_foldM {S I J} (f : I -> list J) (body : J -> S -> outcome S) (g : I -> S -> outcome S) l s : (forall i s, In i l -> g i s = foldM body (f i) s) ->
  foldM g l s = foldM body (flat_map f l) s.
Proof.
  revert s. induction l as [|x l IH]; intros s H; [reflexivity|]. cbn [foldM flat_map]. rewrite foldM_app, H by (left; auto). destruct (foldM body (f x) s); cbn [bind]; auto.
  apply IH. intros; apply H; right; auto.
Qed.

Lemma next_state L n : 1 <= n -> tl_n L = n -> (forall p, In p (tl_parts L) -> is_part n (lam p)) -> tlev_next L = Ret (lstate (n + 1) (flat_map events (tl_parts L))).
Proof.
  intros Hn En H. unfold tlev_next. rewrite (foldM_foldM events (fun e L => tlev_add_sub L (fst e) (snd e))).
  - rewrite En. change (mkTlev (n + 1) [] []) with (lstate (n + 1) []). rewrite add_subs_ok; [reflexivity|lia|]. cbn [app]. intros k Hk. apply in_map_iff in Hk as ((k', p) & <- & Hk).
    apply in_flat_map in Hk as (q & Hq & Hk). unfold events in Hk. apply in_map_iff in Hk as (r & E & Hr). injection E as <- <-. cbn [fst]. apply add_part; auto.
  - intros p s Hp. apply (extend_events n); auto.
Qed.

(* ---- the partitions reached from a row of m boxes ---- *)

Definition qlist (m n : Z) : list (list Z) := filter (fun l => m <=? row l 0) (plist (Z.to_nat (n - 1))).
Definition subs (m : Z) (l : list Z) : list Z := filter (fun r => m <=? row (prem l r) 0) (corners l).

Lemma in_qlist m n l : 1 <= n -> (In l (qlist m n) <-> is_part n l /\ m <= row l 0).
Proof. intros Hn. unfold qlist. rewrite filter_In, plist_spec. replace (Z.of_nat (Z.to_nat (n - 1)) + 1) with n by lia. rewrite Z.leb_le. reflexivity. Qed.

Lemma qlist_sorted m n : StronglySorted lex_greater (qlist m n).
Proof. apply StronglySorted_filter. apply plist_sorted. Qed.

Lemma NoDup_qlist m n : NoDup (qlist m n).
Proof. eapply sorted_NoDup; [apply lex_irrefl|apply qlist_sorted]. Qed.

Lemma filter_all {A} (b : A -> bool) l : (forall x, In x l -> b x = true) -> filter b l = l.
Proof. induction l as [|x l IH]; intros H; [reflexivity|]. cbn [filter]. rewrite (H x (or_introl eq_refl)). rewrite IH; auto. intros; apply H; right; auto. Qed.

Lemma part_row0 n l : is_part n l -> 1 <= n -> 1 <= row l 0.
Proof. intros P Hn. apply ppos_row; [eapply is_part_ppos; eauto|]. pose proof (part_len_pos n l P Hn). lia. Qed.

Lemma qlist_all n : 1 <= n -> qlist 1 n = plist (Z.to_nat (n - 1)).
Proof.
  intros Hn. unfold qlist. apply filter_all. intros l Hl. apply plist_spec in Hl. replace (Z.of_nat (Z.to_nat (n - 1)) + 1) with n in Hl by lia.
  pose proof (part_row0 n l Hl Hn). lia.
Qed.

Lemma one_row n l : is_part n l -> n <= row l 0 -> 1 <= n -> l = [n].
Proof.
  intros P H Hn. pose proof (is_part_ppos _ _ P) as Q. pose proof (is_part_sum _ _ P) as S. destruct l as [|x l]; [cbn in S; lia|]. change (row (x :: l) 0) with x in H. rewrite zsum_cons in S.
  destruct l as [|y l]; [cbn in S; f_equal; lia|]. exfalso. pose proof (ppos_tl _ _ Q) as (_ & Q'). pose proof (ppos_sum_pos _ _ Q'). lia.
Qed.

Lemma is_part_row n : 1 <= n -> is_part n [n].
Proof. intros H. split; [intros x [<-|[]]; auto|]. split; [repeat constructor|cbn; lia]. Qed.

Lemma qlist_seed m : 1 <= m -> qlist m m = [[m]].
Proof.
  intros Hm. apply sorted_unique; [apply qlist_sorted|repeat constructor|]. intros l. rewrite in_qlist by auto. split.
  - intros (P & H). left. symmetry. apply (one_row m); auto.
  - intros [<-|[]]. split; [apply is_part_row; auto|cbn; lia].
Qed.

Lemma in_subs m l r : In r (subs m l) <-> In r (corners l) /\ m <= row (prem l r) 0.
Proof. unfold subs. rewrite filter_In, Z.leb_le. reflexivity. Qed.

Lemma subs_part m n l r : is_part (n + 1) l -> In r (subs m l) -> is_part n (prem l r) /\ m <= row (prem l r) 0.
Proof. intros P H. apply in_subs in H as (H & K). split; auto. replace n with (n + 1 - 1) by lia. eapply corner_part; eauto. Qed.

Lemma bottom_corner n l : is_part n l -> 1 <= n -> In (zlen l - 1) (corners l).
Proof.
  intros P Hn. pose proof (part_len_pos n l P Hn). apply in_corners. split; [lia|]. rewrite (row_out l (zlen l - 1 + 1)) by lia.
  pose proof (ppos_row l (zlen l - 1) (is_part_ppos _ _ P) ltac:(lia)). lia.
Qed.

Lemma prem_lex n l r q : is_part n l -> In r (corners l) -> In q (corners l) -> q < r -> lex_greater (prem l r) (prem l q).
Proof.
  intros P Hr Hq L. exists q. pose proof (proj1 (in_corners l r) Hr). pose proof (proj1 (in_corners l q) Hq). split; [lia|]. rewrite !row_prem by (eauto using is_part_ppos; lia).
  split; [destruct (Z.eqb_spec q q), (Z.eqb_spec q r); lia|]. intros j Hj. rewrite !row_prem by (eauto using is_part_ppos; lia). destruct (Z.eqb_spec j q), (Z.eqb_spec j r); lia.
Qed.

Lemma subs_sorted m n l : is_part n l -> StronglySorted lex_greater (map (prem l) (subs m l)).
Proof.
  intros P. assert (StronglySorted Z.gt (subs m l)) as S by (apply StronglySorted_filter; apply corners_sorted).
  assert (forall r, In r (subs m l) -> In r (corners l)) as I by (intros r H; apply in_subs in H; tauto). revert S I. generalize (subs m l) as rs.
  induction rs as [|r rs IH]; intros S I; [constructor|]. inversion S as [|a b S1 F]; subst. rewrite Forall_forall in F. cbn [map]. constructor; [apply IH; auto; intros; apply I; right; auto|].
  rewrite Forall_forall. intros q Hq. apply in_map_iff in Hq as (q' & <- & Hq). eapply prem_lex; eauto; [apply I; left; auto|apply I; right; auto|]. specialize (F q' Hq). lia.
Qed.

(* children: the partitions with one box more *)
Definition kids (l : list Z) : list (list Z) := map (padd l) (adds l).

Lemma in_kids n l k : is_part n l -> (In k (kids l) <-> exists r, In r (corners k) /\ prem k r = l /\ is_part (n + 1) k).
Proof.
  intros P. unfold kids. rewrite in_map_iff. split.
  - intros (r & <- & Hr). exists r. split; [eapply add_corner; eauto|]. split; [eapply prem_add; eauto|]. eapply add_part; eauto.
  - intros (r & Hr & <- & Pk). exists r. split; [eapply padd_rem; eauto|eapply rem_add; eauto].
Qed.

Lemma NoDup_kids n l : is_part n l -> NoDup (kids l).
Proof.
  intros P. apply NoDup_map_inj_in; [|apply NoDup_adds]. intros r q Hr Hq E.
  pose proof (proj1 (in_adds _ _) Hr). assert (row (padd l r) r = row (padd l q) r) as K by (rewrite E; auto). rewrite !(add_row n) in K by (auto; lia).
  destruct (Z.eqb_spec r r), (Z.eqb_spec r q); lia.
Qed.

Lemma bottom_kids n l : is_part n l -> 1 <= n -> filter (fun k => if pdec (prem k (zlen k - 1)) l then true else false) (kids l) = pchildren l.
Proof.
  intros P Hn. pose proof (part_len_pos n l P Hn) as Hk. unfold kids, adds, pchildren. cbv zeta.
  rewrite zrange_snoc by lia. rewrite (zrange_app 0 (zlen l - 1) (zlen l)) by lia. rewrite (zrange_cons (zlen l - 1)) by lia. rewrite (zrange_nil (zlen l - 1 + 1)) by lia.
  rewrite !filter_app, !map_app, !filter_app. cbn [filter].
  replace ((zlen l =? 0) || (row l (zlen l) <? row l (zlen l - 1))) with true.
  2:{ rewrite (row_out l (zlen l)) by lia. pose proof (ppos_row l (zlen l - 1) (is_part_ppos _ _ P) ltac:(lia)). lia. }
  replace ((zlen l =? 1) || (row l (zlen l - 1) <? row l (zlen l - 2))) with ((zlen l - 1 =? 0) || (row l (zlen l - 1) <? row l (zlen l - 1 - 1))) by (replace (zlen l - 1 - 1) with (zlen l - 2) by lia; lia).
  assert (zlen (padd l (zlen l)) = zlen l + 1) as Z1. { unfold padd. rewrite Z.ltb_irrefl, zlen_app. reflexivity. }
  assert (forall r, 0 <= r < zlen l -> zlen (padd l r) = zlen l) as Z2. { intros r Hr. unfold padd. destruct (Z.ltb_spec r (zlen l)); [apply zlen_zupd; lia|lia]. }
  assert (forall rs, (forall r, In r rs -> 0 <= r < zlen l - 1 /\ In r (adds l)) -> filter (fun k => if pdec (prem k (zlen k - 1)) l then true else false) (map (padd l) rs) = []) as F0.
  { induction rs as [|r rs IH]; intros H; [reflexivity|]. cbn [map filter]. destruct (H r (or_introl eq_refl)) as (Hr & Ar). rewrite Z2 by lia. destruct (pdec (prem (padd l r) (zlen l - 1)) l) as [E|].
    - exfalso. assert (row (prem (padd l r) (zlen l - 1)) r = row l r) as K by (rewrite E; auto). pose proof (add_part n l r P Ar) as P1.
      rewrite row_prem in K by (eauto using is_part_ppos; rewrite ?Z2 by lia; lia). rewrite (add_row n) in K by (auto; lia). destruct (Z.eqb_spec r r), (Z.eqb_spec r (zlen l - 1)); lia.
    - apply IH. intros; apply H; right; auto. }
  rewrite F0.
  2:{ intros r Hr. apply filter_In in Hr as (Hr & B). apply in_zrange in Hr. split; [lia|]. apply in_adds. lia. }
  cbn [app]. cbn [map filter]. rewrite Z1. replace (zlen l + 1 - 1) with (zlen l) by lia.
  assert (In (zlen l) (adds l)) as A1. { apply in_adds. split; [lia|]. right. rewrite (row_out l (zlen l)) by lia. pose proof (ppos_row l (zlen l - 1) (is_part_ppos _ _ P) ltac:(lia)). lia. }
  rewrite (prem_add n) by auto. destruct (pdec l l); [|contradiction]. f_equal.
  destruct ((zlen l - 1 =? 0) || (row l (zlen l - 1) <? row l (zlen l - 1 - 1))) eqn:Q; [|reflexivity].
  cbn [map filter]. rewrite Z2 by lia. rewrite (prem_add n); auto; [|apply in_adds; lia]. destruct (pdec l l); [reflexivity|contradiction].
Qed.

(* the bottom parent is the largest *)
Lemma bottom_largest n l r : is_part n l -> 1 <= n -> In r (corners l) -> prem l r = prem l (zlen l - 1) \/ lex_greater (prem l (zlen l - 1)) (prem l r).
Proof.
  intros P Hn Hr. pose proof (proj1 (in_corners l r) Hr). destruct (Z.eq_dec r (zlen l - 1)) as [->|N]; [auto|right]. eapply prem_lex; eauto; [eapply bottom_corner; eauto|lia].
Qed.

Lemma lex_row0 a b : lex_greater a b -> row b 0 <= row a 0.
Proof. intros (i & Hi & L & E). destruct (Z.eq_dec i 0) as [->|]; [lia|]. rewrite E by lia. lia. Qed.

Lemma qlist_step m n : 1 <= n -> m <= n -> qlist m (n + 1) = flat_map pchildren (qlist m n).
Proof.
  intros Hn Hm. apply sorted_unique; [apply qlist_sorted| |].
  - eapply StronglySorted_flat_map; [apply qlist_sorted| |].
    + intros p Hp. apply in_qlist in Hp as (P & _); auto. apply pchildren_sorted. eapply part_len_pos; eauto.
    + intros p q a b Hp Hq. apply in_qlist in Hp as (P & _); auto. apply in_qlist in Hq as (Q & _); auto. eapply pchildren_lex; eauto.
  - intros k. rewrite in_qlist, in_flat_map by lia. split.
    + intros (P & H). exists (prem k (zlen k - 1)). pose proof (bottom_corner (n + 1) k P ltac:(lia)) as C. assert (is_part n (prem k (zlen k - 1))) as P1 by (replace n with (n + 1 - 1) by lia; eapply corner_part; eauto).
      split; [|apply (pchildren_part n); auto]. apply in_qlist; auto. split; auto. pose proof (part_len_pos (n + 1) k P ltac:(lia)) as Hk.
      destruct (Z.eq_dec (zlen k) 1) as [E|E].
      * destruct k as [|x [|y k]]; [unfold zlen in E; cbn in E; lia| |unfold zlen in E; cbn in E; lia]. assert (x = n + 1) as -> by (pose proof (is_part_sum _ _ P) as S; cbn in S; lia).
        change (zlen [n + 1] - 1) with 0 in *. rewrite row_prem by (eauto using is_part_ppos; unfold zlen; cbn; lia). cbn. lia.
      * rewrite row_prem by (eauto using is_part_ppos; lia). destruct (Z.eqb_spec 0 (zlen k - 1)); lia.
    + intros (p & Hp & Hk). apply in_qlist in Hp as (P & H); auto. apply (pchildren_part n) in Hk as (Pk & E); auto. split; auto. rewrite E in H.
      rewrite row_prem in H; [destruct (0 =? zlen k - 1); lia|eauto using is_part_ppos|pose proof (part_len_pos (n + 1) k Pk ltac:(lia)); lia|lia].
Qed.

(* first occurrences in the list of all children are the bottom children *)
Lemma dd_kids m n qs rest : 1 <= n -> qlist m n = qs ++ rest -> dd (flat_map kids qs) = flat_map pchildren qs.
Proof.
  intros Hn. revert rest. induction qs as [|mu qs IH] using rev_ind; intros rest E; [reflexivity|].
  rewrite <- app_assoc in E. pose proof (IH _ E) as IH1. rewrite !flat_map_app. unfold dd in *. rewrite fold_left_app, IH1. cbn [flat_map]. rewrite !app_nil_r.
  assert (In mu (qlist m n)) as Imu by (rewrite E; apply in_app_iff; right; left; auto). apply in_qlist in Imu as (P & H); auto.
  rewrite fold_ddstep by (eapply NoDup_kids; eauto). f_equal. rewrite <- (bottom_kids n mu) by auto. apply filter_ext_in. intros k Hk.
  apply (in_kids n) in Hk as (r & Hr & Er & Pk); auto.
  pose proof (bottom_corner (n + 1) k Pk ltac:(lia)) as C. assert (is_part n (prem k (zlen k - 1))) as P1 by (replace n with (n + 1 - 1) by lia; eapply corner_part; eauto).
  assert (In k (flat_map pchildren qs) <-> In (prem k (zlen k - 1)) qs) as K.
  { rewrite in_flat_map. split.
    - intros (p & Hp & Hpk). assert (is_part n p) as Pp. { assert (In p (qlist m n)) as I by (rewrite E; apply in_app_iff; auto). apply in_qlist in I; tauto. } apply (pchildren_part n) in Hpk as (_ & <-); auto.
    - intros I. exists (prem k (zlen k - 1)). split; auto. apply (pchildren_part n); auto. }
  destruct (in_dec pdec k (flat_map pchildren qs)) as [I|I], (pdec (prem k (zlen k - 1)) mu) as [J|J]; auto.
  - exfalso. apply K in I. rewrite J in I. pose proof (NoDup_qlist m n) as ND. rewrite E in ND. apply NoDup_remove_2 in ND. apply ND. apply in_app_iff; auto.
  - exfalso. apply I. apply K. destruct (bottom_largest (n + 1) k r Pk ltac:(lia) Hr) as [B|B]; [congruence|]. rewrite Er in B.
    assert (In (prem k (zlen k - 1)) (qlist m n)) as Q. { apply in_qlist; auto. split; auto. pose proof (lex_row0 _ _ B). lia. }
    rewrite E in Q. apply in_app_iff in Q as [Q|[Q|Q]]; [auto|congruence|]. exfalso. pose proof (qlist_sorted m n) as S. rewrite E in S.
    clear - S Q B.
    induction qs as [|x qs IH].
    + cbn in S. inversion S as [|a b _ F]; subst. rewrite Forall_forall in F. apply (lex_irrefl mu). eapply lex_trans; [apply F; exact Q|exact B].
    + apply IH. inversion S; auto.
Qed.

Lemma keys_level m n : 1 <= n -> m <= n -> dd (flat_map kids (qlist m n)) = qlist m (n + 1).
Proof. intros Hn Hm. rewrite (dd_kids m n (qlist m n) []) by (auto; rewrite app_nil_r; auto). symmetry. apply qlist_step; auto. Qed.

Lemma parents_level m n k : 1 <= n -> is_part (n + 1) k -> filter (fun l => if in_dec pdec k (kids l) then true else false) (qlist m n) = map (prem k) (subs m k).
Proof.
  intros Hn P. apply sorted_unique.
  - apply StronglySorted_filter. apply qlist_sorted.
  - eapply subs_sorted; eauto.
  - intros l. rewrite filter_In, in_qlist, in_map_iff by auto. split.
    + intros ((Pl & H) & K). destruct (in_dec pdec k (kids l)) as [I|]; [|discriminate]. apply (in_kids n) in I as (r & Hr & <- & _); auto. exists r. split; auto. apply in_subs. auto.
    + intros (r & <- & Hr). destruct (subs_part m n k r P Hr) as (Pl & H). split; auto. destruct (in_dec pdec k (kids (prem k r))) as [|N]; auto. destruct N. apply (in_kids n); auto. exists r.
      apply in_subs in Hr. tauto.
Qed.

(* ---- the parts of a level ---- *)

(* level n = m + k *)
Fixpoint lvpart (m : Z) (k : nat) (l : list Z) : tpart :=
  let n := m + Z.of_nat k in
  match k with
  | O => mkTpart 0 1 1 0 (mkirr n l) [mkBlk 0 0 0]
  | S k' => fold_left tpart_add (map (lvpart m k') (map (prem l) (subs m l))) (tpart0 n l (pix l (qlist m n)))
  end.

Lemma lam_fold subs p : tp_irr (fold_left tpart_add subs p) = tp_irr p.
Proof. revert p. induction subs as [|s subs IH]; intros p; [reflexivity|]. cbn [fold_left]. rewrite IH. reflexivity. Qed.

Lemma lv_irr m k l : tp_irr (lvpart m k l) = mkirr (m + Z.of_nat k) l.
Proof. destruct k; cbn [lvpart]; [reflexivity|]. rewrite lam_fold. reflexivity. Qed.

Lemma lv_lam m k l : lam (lvpart m k l) = l.
Proof. unfold lam. rewrite lv_irr. reflexivity. Qed.

Definition level (m : Z) (k : nat) : tlev :=
  let n := m + Z.of_nat k in mkTlev n (map (lvpart m k) (qlist m n)) (map (fun l => (l, pix l (qlist m n))) (qlist m n)).

Lemma level_seed m : 1 <= m -> tlev_seed m = Ret (level m 0).
Proof.
  intros Hm. unfold tlev_seed, tlev_get_part. cbn [tl_map pm_find bind tl_parts]. unfold tpart_new. destruct (mkirr_ok m [m] (is_part_row m Hm) Hm) as (-> & _). cbn [bind].
  cbn. unfold level. rewrite Z.add_0_r, qlist_seed by auto. cbn [map pix]. destruct (pdec [m] [m]); [|contradiction]. cbn [lvpart]. rewrite Z.add_0_r. reflexivity.
Qed.

Lemma level_next m k : 1 <= m -> tlev_next (level m k) = Ret (level m (S k)).
Proof.
  intros Hm. set (n := m + Z.of_nat k). assert (m + Z.of_nat (S k) = n + 1) as En by lia.
  rewrite (next_state (level m k) n); [|lia|reflexivity|].
  2:{ intros p Hp. cbn [level tl_parts] in Hp. apply in_map_iff in Hp as (l & <- & Hl). rewrite lv_lam. apply in_qlist in Hl; [tauto|lia]. }
  f_equal. cbn [level tl_parts]. unfold lstate, level. rewrite En.
  assert (keys (flat_map events (map (lvpart m k) (qlist m n))) = qlist m (n + 1)) as K.
  { unfold keys. rewrite <- keys_level by lia. f_equal. rewrite flat_map_concat_map, concat_map, !map_map, <- flat_map_concat_map. rewrite !flat_map_concat_map. f_equal. apply map_ext. intros l.
    unfold events, kids. rewrite lv_lam, map_map. reflexivity. }
  fold n. rewrite K. f_equal. apply map_ext_in. intros l Hl. apply in_qlist in Hl as (P & H); [|lia].
  unfold lpart. rewrite K. cbn [lvpart]. rewrite En. f_equal. rewrite <- (parents_level m n l) by (auto; lia).
  unfold subsof. assert (forall qs, (forall q, In q qs -> is_part n q) -> map snd (filter (fun e => if pdec (fst e) l then true else false) (flat_map events (map (lvpart m k) qs))) =
     map (lvpart m k) (filter (fun q => if in_dec pdec l (kids q) then true else false) qs)) as A.
  2:{ apply A. intros q Hq. apply in_qlist in Hq; [tauto|lia]. }
  induction qs as [|q qs IH]; intros Hq; [reflexivity|]. cbn [map flat_map filter]. rewrite filter_app, map_app, IH by (intros; apply Hq; right; auto).
  assert (map snd (filter (fun e => if pdec (fst e) l then true else false) (events (lvpart m k q))) = if in_dec pdec l (kids q) then [lvpart m k q] else []) as B.
  2:{ rewrite B. destruct (in_dec pdec l (kids q)); reflexivity. }
  pose proof (NoDup_kids n q (Hq q (or_introl eq_refl))) as ND. unfold events. rewrite lv_lam. unfold kids in *. revert ND. generalize (adds q) as rs. induction rs as [|r rs IH2]; intros ND; [reflexivity|].
  cbn [map filter fst] in *. inversion ND as [|a b N1 N2]; subst. specialize (IH2 N2). destruct (pdec (padd q r) l) as [E|E].
  - cbn [map snd]. rewrite IH2. subst l. destruct (in_dec pdec (padd q r) (map (padd q) rs)); [contradiction|]. destruct (in_dec pdec (padd q r) (padd q r :: map (padd q) rs)) as [|X]; [reflexivity|]. destruct X; left; auto.
  - rewrite IH2. destruct (in_dec pdec l (map (padd q) rs)) as [I|I], (in_dec pdec l (padd q r :: map (padd q) rs)) as [J|J]; auto; [destruct J; right; auto|destruct J; [contradiction|contradiction]].
Qed.

Lemma grow_ok m c : 1 <= m -> 0 <= c -> fft_grow c (level m 0) = Ret (map (level m) (seq 0 (S (Z.to_nat c)))).
Proof.
  intros Hm Hc. unfold fft_grow.
  destruct (zfor_inv (fun l Ls => Ls = map (level m) (seq 0 (Z.to_nat l))) 1 (c + 1)
    (fun l Ls => prev <- rd Ls (l - 1) ;; L <- tlev_next prev ;; Ret (Ls ++ [L])) [level m 0]) as (Ls & E & K); [lia|reflexivity| |].
  - intros l Ls Hl ->. rewrite (rd_ok _ _ (level m 0)) by (rewrite zlen_map; unfold zlen; rewrite seq_length; lia). cbn [bind].
    rewrite (znth_map _ _ _ 0%nat) by (unfold zlen; rewrite seq_length; lia). unfold znth. rewrite seq_nth by lia. rewrite level_next by auto. cbn [bind].
    eexists. split; [reflexivity|]. replace (Z.to_nat (l + 1)) with (S (Z.to_nat l)) by lia. rewrite seq_S, map_app. cbn [map]. do 3 f_equal. lia.
  - rewrite E, K. do 3 f_equal. lia.
Qed.

Lemma fft_new_ok n : 1 <= n -> fft_new n = Ret (mkFft n (-1) (map (level 1) (seq 0 (Z.to_nat n)))).
Proof.
  intros Hn. unfold fft_new. destruct (Z.ltb_spec n 0); [lia|]. destruct (Z.eqb_spec n 0); [lia|]. rewrite level_seed by lia. cbn [bind]. rewrite grow_ok by lia. cbn [bind]. do 4 f_equal. lia.
Qed.

Lemma fft_new2_ok n m : 1 <= m <= n -> fft_new2 n m = Ret (mkFft n m (map (level m) (seq 0 (S (Z.to_nat (n - m)))))).
Proof.
  intros Hn. unfold fft_new2. destruct (Z.ltb_spec (n - m + 1) 0); [lia|]. destruct (Z.eqb_spec (n - m + 1) 0); [lia|]. rewrite level_seed by lia. cbn [bind]. rewrite grow_ok by lia. reflexivity.
Qed.
