(* The heap behaviour of Permutation and IntegerPartition refines value semantics. *)
From Coq Require Import ZArith List Bool Lia.
From Verif Require Import Model_Base Spec_Mem Model_Mem Proof_Base.
Import ListNotations.
Open Scope Z_scope.

(* ---- arrays ------------------------------------------------------------------------------- *)

Lemma zupd_app_last {A} (l : list A) x y : zupd (l ++ [x]) (zlen l) y = l ++ [y].
Proof.
  unfold zupd, zlen. rewrite Nat2Z.id.
  rewrite firstn_app, firstn_all, Nat.sub_diag. cbn [firstn].
  rewrite skipn_all2; [now rewrite app_nil_r|rewrite app_length; cbn; lia].
Qed.

Lemma zlen_snoc {A} (l : list A) x : zlen (l ++ [x]) = zlen l + 1.
Proof. rewrite zlen_app. reflexivity. Qed.

Lemma rd_last {A} (l : list A) x : rd (l ++ [x]) (zlen l) = Ret x.
Proof.
  rewrite (rd_ok _ _ x) by (rewrite zlen_snoc; pose proof (zlen_nonneg l); lia).
  rewrite znth_app by apply zlen_nonneg.
  destruct (zlen l <? zlen l) eqn:E; [apply Z.ltb_lt in E; lia|]. rewrite Z.sub_diag. reflexivity.
Qed.

Lemma rd_app_l {A} (l l' : list A) i x : rd l i = Ret x -> rd (l ++ l') i = Ret x.
Proof.
  intros H. destruct (rd_inv _ _ _ H) as [H1 H2].
  rewrite (rd_ok _ _ x) by (rewrite zlen_app; pose proof (zlen_nonneg l'); lia).
  rewrite znth_app by lia. destruct (Z.ltb_spec i (zlen l)); [|lia]. now rewrite H2.
Qed.

Lemma rd_zupd {A} (l : list A) i j x : 0 <= i < zlen l ->
  rd (zupd l i x) j = if j =? i then Ret x else rd l j.
Proof.
  intros Hi. destruct (Z.eqb_spec j i) as [->|N].
  - rewrite (rd_ok _ _ x) by (rewrite zlen_zupd; lia). rewrite znth_zupd by lia. now rewrite Z.eqb_refl.
  - destruct (Z.ltb_spec j 0); [unfold rd; destruct (Z.leb_spec 0 j); [lia|reflexivity]|].
    destruct (Z.ltb_spec j (zlen l)).
    + rewrite !(rd_ok _ _ x) by (rewrite ?zlen_zupd; lia). rewrite znth_zupd by lia.
      destruct (Z.eqb_spec j i); [lia|reflexivity].
    + rewrite !rd_out by (rewrite ?zlen_zupd; lia). reflexivity.
Qed.

(* ---- collecting n values ------------------------------------------------------------------ *)

Definition tabM (n : Z) (src : Z -> outcome Z) : outcome (list Z) :=
  zfor 0 n (fun i l => a <- src i ;; Ret (l ++ [a])) [].

(* one loop for all the array fills: cells 0..n-1 of the newest block are written from [src] *)
Lemma fill_loop H V m n (body : Z -> mem -> outcome mem) (src : Z -> outcome Z) :
  0 <= n -> n <= Z.of_nat m ->
  (forall i c, 0 <= i < n ->
     body i (Mem (H ++ [Some c]) V) =
     (a <- src i ;; m_put (Some (zlen H)) i a (Mem (H ++ [Some c]) V))) ->
  zfor 0 n body (Mem (H ++ [Some (repeat None m)]) V) =
  (l <- tabM n src ;; Ret (Mem (H ++ [Some (map Some l ++ repeat None (m - Z.to_nat n))]) V)).
Proof.
  intros Hn Hm Hb.
  enough (G : forall k, 0 <= k -> k <= n ->
    zfor 0 k body (Mem (H ++ [Some (repeat None m)]) V) =
    (l <- tabM k src ;; Ret (Mem (H ++ [Some (map Some l ++ repeat None (m - Z.to_nat k))]) V)) /\
    (forall l, tabM k src = Ret l -> zlen l = k)) by (apply G; lia).
  refine (natlike_ind _ _ _).
  - intros _. unfold tabM. rewrite !zfor_nil by lia. cbn [bind map app].
    rewrite Nat.sub_0_r. split; [reflexivity|]. intros l E. apply Ret_inj in E. subst. reflexivity.
  - intros k Hk IH Hle. unfold Z.succ in *. destruct IH as [IH1 IH2]; [lia|].
    unfold tabM in *. rewrite !zfor_snoc by lia. rewrite IH1.
    destruct (zfor 0 k (fun i l => a <- src i ;; Ret (l ++ [a])) []) as [l| | |] eqn:El;
      cbn [bind]; [|split; [reflexivity|discriminate] ..].
    specialize (IH2 l eq_refl). rewrite Hb by lia.
    destruct (src k) as [a| | |]; cbn [bind]; [|split; [reflexivity|discriminate] ..].
    split; [|intros l' E; apply Ret_inj in E; subst l'; rewrite zlen_snoc; lia].
    unfold m_put, m_blk. cbn [heap]. rewrite rd_last. cbn [bind fst snd].
    assert (El1 : zlen (map Some l ++ repeat None (m - Z.to_nat k)) = Z.of_nat m)
      by (rewrite zlen_app, zlen_map, zlen_repeat; lia).
    rewrite wr_ok by lia. cbn [bind].
    rewrite wr_ok by (rewrite zlen_snoc; pose proof (zlen_nonneg H); lia).
    cbn [bind vars]. rewrite zupd_app_last. do 5 f_equal.
    replace (m - Z.to_nat k)%nat with (S (m - Z.to_nat (k + 1)))%nat by lia.
    cbn [repeat]. generalize (repeat (@None Z) (m - Z.to_nat (k + 1))). intros r.
    rewrite map_app. cbn [map]. rewrite <- app_assoc. cbn [app].
    replace k with (zlen (map (@Some Z) l)) by (rewrite zlen_map; lia).
    unfold zupd, zlen. rewrite Nat2Z.id.
    rewrite firstn_app, firstn_all, Nat.sub_diag. cbn [firstn].
    rewrite app_nil_r. f_equal. f_equal.
    rewrite skipn_app, skipn_all2 by lia.
    replace (S (length (map Some l)) - length (map Some l))%nat with 1%nat by lia. reflexivity.
Qed.

Lemma tabM_ext n f g : (forall i, 0 <= i < n -> f i = g i) -> tabM n f = tabM n g.
Proof.
  intros E. unfold tabM, zfor. apply foldM_ext. intros i s Hi. apply in_zrange in Hi. now rewrite E.
Qed.

Lemma tabM_ret n (f : Z -> Z) : tabM n (fun i => Ret (f i)) = Ret (map f (zrange 0 n)).
Proof.
  unfold tabM, zfor. cbn [bind].
  enough (G : forall l t, foldM (fun i l => Ret (l ++ [f i])) l t = Ret (t ++ map f l)).
  { rewrite G. reflexivity. }
  induction l as [|x l IH]; intros t; cbn [foldM map]; [now rewrite app_nil_r|].
  cbn [bind]. rewrite IH, <- app_assoc. reflexivity.
Qed.

(* reading entry i of a block *)
Definition cell (c : list (option Z)) (i : Z) : outcome Z :=
  x <- rd c i ;; match x with Some a => Ret a | None => UB end.

Definition o2 {A} (x : option A) : outcome A := match x with Some a => Ret a | None => UB end.

Lemma cell_entry c i : cell c i = o2 (entry (Cells c) i).
Proof.
  unfold cell, rd, entry. destruct (0 <=? i); [|reflexivity].
  destruct (nth_error c (Z.to_nat i)) as [[a|]|]; reflexivity.
Qed.

Lemma tabM_cell_gen (c : list (option Z)) : forall t,
  foldM (fun i l => a <- cell c i ;; Ret (l ++ [a])) (zrange 0 (zlen c)) t =
  (l <- o2 (ints c) ;; Ret (t ++ l)).
Proof.
  induction c as [|x c IH] using rev_ind; intros t.
  - unfold zrange. cbn. now rewrite app_nil_r.
  - assert (Hi : forall c', ints (c' ++ [x]) =
        match ints c', x with Some l, Some a => Some (l ++ [a]) | _, _ => None end).
    { induction c' as [|[y|] c' IH']; cbn [ints app].
      - destruct x; reflexivity.
      - rewrite IH'. destruct (ints c'); [|reflexivity]. destruct x; reflexivity.
      - reflexivity. }
    rewrite Hi, zlen_snoc, zrange_snoc by apply zlen_nonneg. rewrite foldM_app.
    rewrite (foldM_ext _ (fun i l => a <- cell c i ;; Ret (l ++ [a]))).
    2:{ intros i s Hs. apply in_zrange in Hs. unfold cell.
        rewrite (rd_ok (c ++ [x]) i None) by (rewrite zlen_snoc; lia).
        rewrite (rd_ok c i None) by lia. rewrite znth_app by lia.
        destruct (Z.ltb_spec i (zlen c)); [reflexivity|lia]. }
    rewrite IH. destruct (ints c) as [l|]; cbn [o2 bind]; [|reflexivity].
    cbn [foldM]. unfold cell. rewrite rd_last. cbn [bind].
    destruct x as [a|]; cbn [o2 bind]; [|reflexivity]. now rewrite <- app_assoc.
Qed.

Lemma tabM_cell c : tabM (zlen c) (cell c) = o2 (ints c).
Proof. unfold tabM, zfor. rewrite tabM_cell_gen. destruct (ints c); reflexivity. Qed.

Lemma tabM_first c x : tabM (zlen c) (cell (c ++ [x])) = o2 (ints c).
Proof.
  rewrite <- tabM_cell. apply tabM_ext. intros i Hi. unfold cell.
  rewrite (rd_ok (c ++ [x]) i None) by (rewrite zlen_snoc; lia).
  rewrite (rd_ok c i None) by lia. rewrite znth_app by lia.
  destruct (Z.ltb_spec i (zlen c)); [reflexivity|lia].
Qed.

Lemma ints_len c l : ints c = Some l -> zlen l = zlen c.
Proof.
  revert l. induction c as [|[x|] c IH]; cbn [ints]; intros l E; [|destruct (ints c)|discriminate].
  - inversion E; reflexivity.
  - inversion E; subst. rewrite !zlen_cons, (IH l0) by reflexivity. reflexivity.
  - discriminate.
Qed.

Lemma ints_map l : ints (map Some l) = Some l.
Proof. induction l as [|x l IH]; cbn [ints map]; [reflexivity|now rewrite IH]. Qed.

Lemma replace_zupd l i x : 0 <= i < zlen l -> replace l (Z.to_nat i) x = zupd l i x.
Proof.
  intros [H1 H2]. rewrite <- (Z2Nat.id i H1) in H2 |- *. unfold zlen in H2.
  rewrite Nat2Z.id. set (k := Z.to_nat i) in *. clearbody k. clear i H1. unfold zupd. rewrite Nat2Z.id.
  revert l H2. induction k as [|k IH]; intros [|y l] H; cbn [replace firstn skipn app];
    cbn [length] in H; try lia; [reflexivity|].
  f_equal. apply IH. lia.
Qed.

(* ---- the relation between heaps and values ------------------------------------------------ *)

Definition holds (H : list (option (list (option Z)))) (o : option obj) (x : option val) : Prop :=
  match o, x with
  | None, None => True
  | Some o, Some (Gone n) => o = Obj n None /\ 0 <= n
  | Some o, Some (Cells l) => exists b, o = Obj (zlen l) (Some b) /\ rd H b = Ret (Some l)
  | _, _ => False
  end.

Definition owner (V : Z -> option obj) (v b : Z) : Prop := exists n, V v = Some (Obj n (Some b)).

Record rel (s : mem) (st : store) : Prop := {
  rel_holds : forall v, holds (heap s) (vars s v) (st v);
  rel_inj : forall v w b, owner (vars s) v b -> owner (vars s) w b -> v = w;
  rel_owned : forall b c, rd (heap s) b = Ret (Some c) -> exists v, owner (vars s) v b
}.

Definition hfree (H : list (option (list (option Z)))) (p : option Z) :=
  match p with None => H | Some b => zupd H b None end.
Definition oldp (o : option obj) : option Z := match o with Some o => optr o | None => None end.

Lemma rel0 : rel mem0 empty.
Proof.
  split; cbn.
  - intros v. exact I.
  - intros v w b [n E]. discriminate.
  - intros b c E. unfold rd in E. destruct (0 <=? b); [|discriminate].
    destruct (Z.to_nat b); discriminate.
Qed.

Lemma owner_lt s st v b : rel s st -> owner (vars s) v b -> exists c, rd (heap s) b = Ret (Some c).
Proof.
  intros R [n E]. pose proof (rel_holds _ _ R v) as H. rewrite E in H. unfold holds in H.
  destruct (st v) as [[m|l]|]; [destruct H; discriminate| |destruct H].
  destruct H as [b' [E1 E2]]. inversion E1; subst. eauto.
Qed.

Lemma hfree_zlen H p : (forall b, p = Some b -> 0 <= b < zlen H) -> zlen (hfree H p) = zlen H.
Proof. intros Hp. destruct p as [b|]; cbn [hfree]; [|reflexivity]. apply zlen_zupd, Hp; reflexivity. Qed.

Lemma oldp_ok s st v b : rel s st -> oldp (vars s v) = Some b ->
  owner (vars s) v b /\ 0 <= b < zlen (heap s).
Proof.
  intros R E. destruct (vars s v) as [[n p]|] eqn:Ev; cbn in E; [|discriminate]. subst p.
  assert (O : owner (vars s) v b) by (exists n; auto). split; [auto|].
  destruct (owner_lt _ _ _ _ R O) as [c Hc]. now destruct (rd_inv _ _ _ Hc).
Qed.

Lemma rd_hfree_other s st v w b c : rel s st -> v <> w -> owner (vars s) w b ->
  rd (heap s) b = Ret c -> rd (hfree (heap s) (oldp (vars s v))) b = Ret c.
Proof.
  intros R N Ow E. destruct (oldp (vars s v)) as [b'|] eqn:Ep; cbn [hfree]; [|auto].
  destruct (oldp_ok _ _ _ _ R Ep) as [O' Hb']. rewrite rd_zupd by auto.
  destruct (Z.eqb_spec b b') as [->|]; [|auto]. exfalso. apply N. eapply (rel_inj _ _ R); eauto.
Qed.

(* [v] gets a block of its own, its old block (if any) having been freed *)
Lemma rel_newblock s st v c V' st' :
  rel s st ->
  (forall w, V' w = if w =? v then Some (Obj (zlen c) (Some (zlen (heap s)))) else vars s w) ->
  (forall w, st' w = if w =? v then Some (Cells c) else st w) ->
  rel (Mem (hfree (heap s) (oldp (vars s v)) ++ [Some c]) V') st'.
Proof.
  intros R HV Hst.
  assert (Hz : zlen (hfree (heap s) (oldp (vars s v))) = zlen (heap s)).
  { apply hfree_zlen. intros b E. apply (oldp_ok _ _ _ _ R E). }
  assert (HO : forall w b, owner V' w b -> (w = v /\ b = zlen (heap s)) \/ (w <> v /\ owner (vars s) w b)).
  { intros w b [n E]. rewrite HV in E. destruct (Z.eqb_spec w v).
    - inversion E; subst. now left.
    - right. split; [auto|]. now exists n. }
  assert (HL : forall w b, owner (vars s) w b -> 0 <= b < zlen (heap s)).
  { intros w b O. destruct (owner_lt _ _ _ _ R O) as [k Hk]. now destruct (rd_inv _ _ _ Hk). }
  split; cbn [heap vars].
  - intros w. rewrite HV, Hst. destruct (Z.eqb_spec w v) as [->|N].
    + cbn. exists (zlen (heap s)). split; [reflexivity|]. rewrite <- Hz. apply rd_last.
    + pose proof (rel_holds _ _ R w) as H. unfold holds in *.
      destruct (vars s w) as [o|] eqn:Ev; destruct (st w) as [[n|l]|]; auto.
      destruct H as [b [E1 E2]]. exists b. split; [auto|]. apply rd_app_l.
      eapply (rd_hfree_other s st v w); eauto. subst o. exists (zlen l). auto.
  - intros w u b O1 O2. apply HO in O1, O2.
    destruct O1 as [[-> ->]|[N1 O1]], O2 as [[-> E]|[N2 O2]]; auto.
    + apply HL in O2. lia.
    + apply HL in O1. lia.
    + eapply (rel_inj _ _ R); eauto.
  - intros b k Hk. destruct (rd_inv _ _ _ Hk) as [Hb _]. rewrite zlen_snoc, Hz in Hb.
    destruct (Z.eqb_spec b (zlen (heap s))) as [->|N].
    + exists v, (zlen c). rewrite HV, Z.eqb_refl. reflexivity.
    + assert (Hk2 : rd (heap s) b = Ret (Some k) /\ oldp (vars s v) <> Some b).
      { rewrite (rd_ok _ _ None) in Hk by (rewrite zlen_snoc, Hz; lia).
        rewrite znth_app in Hk by lia. rewrite Hz in Hk.
        destruct (Z.ltb_spec b (zlen (heap s))); [|lia].
        rewrite <- rd_ok in Hk by (rewrite Hz; lia).
        destruct (oldp (vars s v)) as [b'|] eqn:Ep; cbn [hfree] in Hk; [|split; [auto|discriminate]].
        destruct (oldp_ok _ _ _ _ R Ep) as [_ Hb']. rewrite rd_zupd in Hk by auto.
        destruct (Z.eqb_spec b b'); [discriminate|]. split; [auto|congruence]. }
      destruct Hk2 as [Hk2 Hne]. destruct (rel_owned _ _ R _ _ Hk2) as [w [n Ow]].
      exists w, n. rewrite HV. destruct (Z.eqb_spec w v) as [->|]; [|auto].
      rewrite Ow in Hne. cbn in Hne. congruence.
Qed.

(* the block of [v] changes in place *)
Lemma rel_inplace s st v l l' b st' :
  rel s st -> st v = Some (Cells l) -> vars s v = Some (Obj (zlen l) (Some b)) -> zlen l' = zlen l ->
  (forall w, st' w = if w =? v then Some (Cells l') else st w) ->
  rel (Mem (zupd (heap s) b (Some l')) (vars s)) st'.
Proof.
  intros R E1 E2 El Hst.
  assert (O : owner (vars s) v b) by (exists (zlen l); auto).
  destruct (owner_lt _ _ _ _ R O) as [k Hk]. destruct (rd_inv _ _ _ Hk) as [Hb _].
  split; cbn [heap vars].
  - intros w. rewrite Hst. destruct (Z.eqb_spec w v) as [->|N].
    + rewrite E2. cbn. exists b. rewrite El. split; [reflexivity|]. rewrite rd_zupd by auto.
      now rewrite Z.eqb_refl.
    + pose proof (rel_holds _ _ R w) as H. unfold holds in *.
      destruct (vars s w) as [o|] eqn:Ev; destruct (st w) as [[n|t]|]; auto.
      destruct H as [b' [F1 F2]]. exists b'. split; [auto|]. rewrite rd_zupd by auto.
      destruct (Z.eqb_spec b' b) as [->|]; [|auto]. exfalso. apply N.
      eapply (rel_inj _ _ R); eauto. subst o. exists (zlen t). auto.
  - apply (rel_inj _ _ R).
  - intros b' c Hc. rewrite rd_zupd in Hc by auto. destruct (Z.eqb_spec b' b) as [->|]; [eauto|].
    apply (rel_owned _ _ R _ _ Hc).
Qed.

(* [v] ends *)
Lemma rel_free s st v V' st' :
  rel s st ->
  (forall w, V' w = if w =? v then None else vars s w) ->
  (forall w, st' w = if w =? v then None else st w) ->
  rel (Mem (hfree (heap s) (oldp (vars s v))) V') st'.
Proof.
  intros R HV Hst. split; cbn [heap vars].
  - intros w. rewrite HV, Hst. destruct (Z.eqb_spec w v) as [->|N]; [exact I|].
    pose proof (rel_holds _ _ R w) as H. unfold holds in *.
    destruct (vars s w) as [o|] eqn:Ev; destruct (st w) as [[n|t]|]; auto.
    destruct H as [b' [F1 F2]]. exists b'. split; [auto|].
    eapply (rd_hfree_other s st v w); eauto. subst o. exists (zlen t). auto.
  - intros w u b [n O1] [m O2]. rewrite HV in O1, O2.
    destruct (w =? v); [discriminate|]. destruct (u =? v); [discriminate|].
    eapply (rel_inj _ _ R); [exists n|exists m]; eauto.
  - intros b c Hc.
    assert (Hk2 : rd (heap s) b = Ret (Some c) /\ oldp (vars s v) <> Some b).
    { destruct (oldp (vars s v)) as [b'|] eqn:Ep; cbn [hfree] in Hc; [|split; [auto|discriminate]].
      destruct (oldp_ok _ _ _ _ R Ep) as [_ Hb']. rewrite rd_zupd in Hc by auto.
      destruct (Z.eqb_spec b b'); [discriminate|]. split; [auto|congruence]. }
    destruct Hk2 as [Hk2 Hne]. destruct (rel_owned _ _ R _ _ Hk2) as [w [n Ow]].
    exists w, n. rewrite HV. destruct (Z.eqb_spec w v) as [->|]; [|auto].
    rewrite Ow in Hne. cbn in Hne. congruence.
Qed.

(* [v] takes over what [x] holds; the old block of [v] has been freed *)
Lemma rel_take s st v x ox a V' st' :
  rel s st -> v <> x -> vars s x = Some ox -> st x = Some a ->
  (forall w, V' w = if w =? x then Some (Obj (osz ox) None) else if w =? v then Some ox else vars s w) ->
  (forall w, st' w = if w =? x then Some (Gone (size a)) else if w =? v then Some a else st w) ->
  rel (Mem (hfree (heap s) (oldp (vars s v))) V') st'.
Proof.
  intros R N Ex Ea HV Hst.
  assert (Hx := rel_holds _ _ R x). rewrite Ex, Ea in Hx. cbn [holds] in Hx.
  assert (Hsz : osz ox = size a /\ 0 <= size a).
  { destruct a as [n|l]; [destruct Hx as [-> ?]; cbn; lia|].
    destruct Hx as [b [-> _]]. cbn [osz size]. unfold zlen. lia. }
  split; cbn [heap vars].
  - intros w. rewrite HV, Hst. destruct (Z.eqb_spec w x) as [->|Nx].
    + cbn. destruct Hsz as [-> ?]. auto.
    + destruct (Z.eqb_spec w v) as [->|Nv].
      * unfold holds. destruct a as [n|l]; [exact Hx|]. destruct Hx as [b [F1 F2]].
        exists b. split; [auto|]. eapply (rd_hfree_other s st v x); eauto. exists (zlen l). congruence.
      * pose proof (rel_holds _ _ R w) as H. unfold holds in *.
        destruct (vars s w) as [o|] eqn:Ev; destruct (st w) as [[n|t]|]; auto.
        destruct H as [b' [F1 F2]]. exists b'. split; [auto|].
        eapply (rd_hfree_other s st v w); eauto. subst o. exists (zlen t). auto.
  - assert (HO : forall w b, owner V' w b -> (w = v /\ owner (vars s) x b) \/ (w <> v /\ w <> x /\ owner (vars s) w b)).
    { intros w b [n E]. rewrite HV in E. destruct (Z.eqb_spec w x); [discriminate|].
      destruct (Z.eqb_spec w v); [left|right]; repeat split; auto; exists n; congruence. }
    intros w u b O1 O2. apply HO in O1, O2.
    destruct O1 as [[-> O1]|[N1 [M1 O1]]], O2 as [[-> O2]|[N2 [M2 O2]]]; auto.
    + exfalso. apply M2. eapply (rel_inj _ _ R); eauto.
    + exfalso. apply M1. eapply (rel_inj _ _ R); eauto.
    + eapply (rel_inj _ _ R); eauto.
  - intros b c Hc.
    assert (Hk2 : rd (heap s) b = Ret (Some c) /\ oldp (vars s v) <> Some b).
    { destruct (oldp (vars s v)) as [b'|] eqn:Ep; cbn [hfree] in Hc; [|split; [auto|discriminate]].
      destruct (oldp_ok _ _ _ _ R Ep) as [_ Hb']. rewrite rd_zupd in Hc by auto.
      destruct (Z.eqb_spec b b'); [discriminate|]. split; [auto|congruence]. }
    destruct Hk2 as [Hk2 Hne]. destruct (rel_owned _ _ R _ _ Hk2) as [w [n Ow]].
    destruct (Z.eqb_spec w x) as [->|Nx].
    + exists v, n. rewrite HV. destruct (Z.eqb_spec v x); [contradiction|].
      rewrite Z.eqb_refl. congruence.
    + exists w, n. rewrite HV. destruct (Z.eqb_spec w x); [contradiction|].
      destruct (Z.eqb_spec w v) as [->|]; [|auto]. rewrite Ow in Hne. cbn in Hne. congruence.
Qed.
