(* Histories of queries to the combinatorial bank, and the restriction order. *)
From Coq Require Import ZArith List Bool Lia Sorted.
From Verif Require Import Model_Base Model_Part Model_Comb Model_Tab Model_CombBank Spec_CombBank Spec_Perm Spec_Part Spec_Tab
  Proof_Base Proof_Perm Proof_Part Proof_PartProps Proof_Tab Proof_TabProps Proof_CombBank.
Import ListNotations.
Open Scope Z_scope.

Definition kof (n : Z) : nat := Z.to_nat (n - 1).
Definition inv_ok (b : list lev) : Prop := bank_ok b /\ ro_ok b.

(* what is stored stays stored *)
Definition mono (b b' : list lev) : Prop :=
  (length b <= length b')%nat /\
  (forall k id, 0 <= id < nip b k ->
    id < nip b' k /\ ob_lambda (oref b' k id) = ob_lambda (oref b k id) /\ ob_parents (oref b' k id) = ob_parents (oref b k id) /\
    (ob_tabs (oref b k id) <> [] -> ob_tabs (oref b' k id) = ob_tabs (oref b k id))) /\
  keep_parts b b' /\ keep_ro b b'.

Lemma mono_refl b : mono b b.
Proof. split; [lia|]. split; [|split; intros j; auto]. intros k id H. split; [lia|auto]. Qed.

Lemma mono_trans a b c : mono a b -> mono b c -> mono a c.
Proof.
  intros (A1 & A2 & A3 & A4) (B1 & B2 & B3 & B4). split; [lia|]. split; [|split].
  - intros k id H. destruct (A2 k id H) as (C1 & C2 & C3 & C4). destruct (B2 k id ltac:(lia)) as (D1 & D2 & D3 & D4).
    split; [auto|]. split; [congruence|]. split; [congruence|]. intros Q. rewrite D4; auto. rewrite C4; auto.
  - intros j H. rewrite B3, A3; auto. rewrite A3; auto.
  - intros j H. rewrite B4, A4; auto. rewrite A4; auto.
Qed.

Lemma ext_mono b b' : ext b b' -> keep_parts b b' -> keep_ro b b' -> mono b b'.
Proof. intros (A & B) C D. split; [lia|]. split; auto. Qed.

Lemma lvl_grow b m k : lvl (b ++ repeat lev_new m) k = lvl b k.
Proof.
  unfold lvl, znth. rewrite !Nat2Z.id. destruct (Nat.lt_ge_cases k (length b)).
  - apply app_nth1. auto.
  - rewrite app_nth2 by auto. rewrite (nth_overflow b) by auto. apply nth_repeat.
Qed.

Lemma lev_new_ok b k : lvl b k = lev_new -> lev_ok b k.
Proof.
  intros E. split; [rewrite E; left; reflexivity|]. split.
  - intros lambda id _. unfold nip, oref. rewrite E. cbn. split; [discriminate|]. unfold zlen. cbn. intros (H & _). lia.
  - unfold nip. rewrite E. cbn. unfold zlen. cbn. intros. lia.
Qed.

Lemma Forall2_imp {A B} (P Q : A -> B -> Prop) l1 l2 : (forall a b, P a b -> Q a b) -> Forall2 P l1 l2 -> Forall2 Q l1 l2.
Proof. intros H F. induction F; constructor; auto. Qed.

Lemma lev_ok_same b b' k : (forall j, lvl b' j = lvl b j) -> lev_ok b k -> lev_ok b' k.
Proof.
  intros E (H1 & H2 & H3). split; [rewrite E; auto|]. split.
  - intros lambda id. unfold nip, oref. rewrite E. apply H2.
  - intros id. unfold nip, oref. rewrite E. intros Hid. destruct (H3 id Hid) as (A & B & C). split; [exact A|]. split; [exact B|].
    destruct k as [|k]; [exact C|]. unfold oref in C. eapply Forall2_imp; [|exact C]. intros p q. unfold psub, nip, oref. rewrite E. auto.
Qed.

Lemma bank_level_ok n b : inv_ok b -> 1 <= n ->
  exists b', bank_level n b = Ret (kof n, b') /\ inv_ok b' /\ mono b b' /\ (kof n < length b')%nat /\ (forall j, lvl b' j = lvl b j) /\
    (n <= zlen b -> b' = b).
Proof.
  intros (Hb & Hr) Hn. unfold bank_level. destruct (Z.ltb_spec n 0); [lia|]. destruct (Z.eqb_spec n 0); [lia|]. cbv zeta.
  destruct (Z.leb_spec n (zlen b)).
  - exists b. split; [reflexivity|]. split; [split; auto|]. split; [apply mono_refl|]. split; [unfold kof, zlen in *; lia|]. auto.
  - eexists. split; [reflexivity|]. pose proof (lvl_grow b (Z.to_nat (n - zlen b))) as G.
    assert (length (b ++ repeat lev_new (Z.to_nat (n - zlen b))) = Z.to_nat n) as L by (rewrite app_length, repeat_length; unfold zlen in *; lia).
    split; [split|split; [|split; [|split; [|lia]]]].
    + intros k Hk. destruct (Nat.lt_ge_cases k (length b)).
      * apply (lev_ok_same b); auto.
      * apply lev_new_ok. rewrite G. unfold lvl, znth. rewrite Nat2Z.id. apply nth_overflow. auto.
    + intros k Hk. rewrite G. destruct (Nat.lt_ge_cases k (length b)); [auto|]. left. unfold lvl, znth. rewrite Nat2Z.id. rewrite nth_overflow by auto. reflexivity.
    + split; [rewrite app_length; lia|]. split; [|split; intros j _; rewrite G; auto]. intros k id Hid. unfold nip, oref in *. rewrite G. split; [lia|auto].
    + rewrite L. unfold kof. lia.
    + apply G.
Qed.

Lemma kof_n n : 1 <= n -> Z.of_nat (kof n) + 1 = n.
Proof. unfold kof. lia. Qed.

Definition valid_q (q : cquery) : Prop :=
  match q with QParts n => 1 <= n | QRO n => 1 <= n | QTabs lambda => 1 <= zsum lambda /\ is_part (zsum lambda) lambda end.

Definition answer (q : cquery) : canswer :=
  match q with
  | QParts n => AParts (plist (kof n))
  | QRO n => AParts (rolist (kof n))
  | QTabs lambda => ATabs (map tw (paths (Z.to_nat (zsum lambda)) lambda))
  end.

Definition stored (q : cquery) (b : list lev) : Prop :=
  match q with
  | QParts n => n <= zlen b /\ lv_parts (lvl b (kof n)) = plist (kof n)
  | QRO n => n <= zlen b /\ lv_ro (lvl b (kof n)) = rolist (kof n)
  | QTabs lambda => zsum lambda <= zlen b /\ exists id, 0 <= id < nip b (kof (zsum lambda)) /\ ob_lambda (oref b (kof (zsum lambda)) id) = lambda /\
      ob_tabs (oref b (kof (zsum lambda)) id) = map tw (paths (Z.to_nat (zsum lambda)) lambda)
  end.

Lemma paths_nonempty n lambda : 1 <= n -> is_part n lambda -> paths (Z.to_nat n) lambda <> [].
Proof.
  intros Hn Hl. destruct (default_standard n lambda Hl) as (t & _ & Ht).
  assert (is_part (Z.of_nat (Z.to_nat n)) lambda) as Hl' by (rewrite Z2Nat.id by lia; auto).
  destruct (proj2 (paths_standard (Z.to_nat n) lambda Hl') t Ht) as (w & Hw & _). intros E. rewrite E in Hw. destruct Hw.
Qed.

Lemma stored_mono q b b' : valid_q q -> mono b b' -> stored q b -> stored q b'.
Proof.
  intros V (M1 & M2 & M3 & M4). destruct q as [n|lambda|n]; cbn [stored valid_q] in *.
  - intros (A & B). split; [unfold zlen in *; lia|]. rewrite M3; auto. rewrite B. apply plist_nonempty.
  - intros (A & id & B & C & D). split; [unfold zlen in *; lia|]. exists id. destruct (M2 _ _ B) as (E1 & E2 & E3 & E4). split; [lia|]. split; [congruence|]. rewrite E4; auto.
    rewrite D. intros Q. apply map_eq_nil in Q. eapply paths_nonempty; [| |exact Q]; tauto.
  - intros (A & B). split; [unfold zlen in *; lia|]. rewrite M4; auto. rewrite B. apply rolist_nonempty.
Qed.

Lemma cstep_ok q b : inv_ok b -> valid_q q ->
  exists b', cstep q b = Ret (answer q, b') /\ inv_ok b' /\ mono b b' /\ stored q b'.
Proof.
  intros Hi V. destruct q as [n|lambda|n]; cbn [cstep answer valid_q stored] in *.
  - unfold bank_partitions. destruct (bank_level_ok n b Hi V) as (b1 & E & (I1 & I2) & M & K & S & _). rewrite E. cbn [bind].
    destruct (get_parts_ok (kof n) b1 I1 K) as (b2 & E2 & B2 & X2 & R2 & K2 & A2 & P2). rewrite E2. cbn [bind fst snd]. exists b2. split; [reflexivity|].
    assert (ro_ok b2) as Ro by (intros j Hj; rewrite R2; apply I2; destruct X2; lia).
    split; [split; auto|]. split; [eapply mono_trans; [exact M|apply ext_mono; auto; intros j _; apply R2]|]. split; [destruct X2; unfold zlen, kof in *; lia|auto].
  - destruct V as (V1 & V2). unfold bank_tableaux. rewrite ip_getn_zsum. destruct (bank_level_ok _ b Hi V1) as (b1 & E & (I1 & I2) & M & K & S & _). rewrite E. cbn [bind].
    set (k := kof (zsum lambda)) in *.
    destruct (get_obj_ok k lambda b1 I1 K) as (id & b2 & E2 & B2 & X2 & P2 & A2 & N2 & L2); [unfold k; rewrite kof_n by auto; auto|].
    rewrite E2. cbn [bind]. assert (k < length b2)%nat as K2 by (destruct X2; lia).
    destruct (get_tabs_ok k id b2 B2 K2 N2) as (b3 & E3 & B3 & X3 & P3 & A3 & T3). rewrite E3. cbn [bind fst snd].
    rewrite L2 in *. replace (Datatypes.S k) with (Z.to_nat (zsum lambda)) in * by (unfold k, kof; lia). exists b3. split; [reflexivity|].
    split; [split; auto|].
    { intros j Hj. rewrite (proj2 (P3 j)), (proj2 (P2 j)). apply I2. destruct X2, X3; lia. }
    split.
    { eapply mono_trans; [exact M|]. apply ext_mono; [eapply ext_trans; eauto| |]; intros j _.
      - rewrite (proj1 (P3 j)). apply P2.
      - rewrite (proj2 (P3 j)). apply P2. }
    split; [destruct X2, X3; unfold zlen, k, kof in *; lia|]. exists id. destruct X3 as (X3 & X4). destruct (X4 k id N2) as (Y1 & Y2 & _).
    split; [lia|]. split; [congruence|]. exact T3.
  - unfold bank_ro. destruct (bank_level_ok n b Hi V) as (b1 & E & (I1 & I2) & M & K & S & _). rewrite E. cbn [bind].
    destruct (get_ro_ok (kof n) b1 I1 I2 K) as (b2 & E2 & B2 & R2 & X2 & K2 & A2 & P2). rewrite E2. cbn [bind fst snd]. exists b2. split; [reflexivity|].
    split; [split; auto|]. split; [eapply mono_trans; [exact M|apply ext_mono; auto]|]. split; [destruct X2; unfold zlen, kof in *; lia|auto].
Qed.

Lemma stored_same q b : inv_ok b -> valid_q q -> stored q b -> cstep q b = Ret (answer q, b).
Proof.
  intros Hi V H. destruct q as [n|lambda|n]; cbn [cstep answer valid_q stored] in *.
  - destruct H as (H1 & H2). unfold bank_partitions. destruct (bank_level_ok n b Hi V) as (b1 & E & _ & M & K & _ & S). rewrite (S H1) in *. rewrite E. cbn [bind].
    destruct (kof n) as [|k]; cbn [get_parts]; rewrite rd_lvl by auto; cbn [bind]; rewrite H2; pose proof (plist_nonempty 0); try pose proof (plist_nonempty (Datatypes.S k));
      match goal with |- context [plist ?z] => destruct (plist z) eqn:Q; [congruence|] end; reflexivity.
  - destruct V as (V1 & V2), H as (H1 & id & H2 & H3 & H4). unfold bank_tableaux. rewrite ip_getn_zsum. destruct (bank_level_ok _ b Hi V1) as (b1 & E & _ & M & K & _ & S). rewrite (S H1) in *. rewrite E. cbn [bind].
    set (k := kof (zsum lambda)) in *. assert (is_part (Z.of_nat k + 1) lambda) as Hl by (unfold k; rewrite kof_n by auto; auto).
    assert (get_obj k lambda b = Ret (id, b)) as G.
    { destruct Hi as (Hb & _). destruct (Hb k K) as (_ & F & _). pose proof (proj2 (F lambda id Hl) (conj H2 H3)) as Q.
      destruct k; cbn [get_obj]; rewrite (assert_part _ _ Hl); cbn [bind]; rewrite rd_lvl by auto; cbn [bind]; rewrite Q; reflexivity. }
    rewrite G. cbn [bind].
    assert (get_tabs k id b = Ret (map tw (paths (Z.to_nat (zsum lambda)) lambda), b)) as G2.
    { pose proof (paths_nonempty _ _ V1 V2) as NE. destruct (map tw (paths (Z.to_nat (zsum lambda)) lambda)) as [|t0 ts] eqn:Q; [apply map_eq_nil in Q; congruence|].
      destruct k; cbn [get_tabs]; rewrite rd_lvl by auto; cbn [bind]; rewrite (rd_ok _ id dobj) by exact H2; cbn [bind];
        unfold oref in H4; rewrite H4; reflexivity. }
    rewrite G2. reflexivity.
  - destruct H as (H1 & H2). unfold bank_ro. destruct (bank_level_ok n b Hi V) as (b1 & E & _ & M & K & _ & S). rewrite (S H1) in *. rewrite E. cbn [bind].
    unfold get_ro. rewrite rd_lvl by auto. cbn [bind]. rewrite H2. pose proof (rolist_nonempty (kof n)). destruct (rolist (kof n)); [congruence|]. reflexivity.
Qed.

Lemma crun_ok qs : forall b, inv_ok b -> Forall valid_q qs -> exists b', crun qs b = Ret (map answer qs, b') /\ inv_ok b' /\ mono b b' /\ Forall (fun q => stored q b') qs.
Proof.
  induction qs as [|q qs IH]; intros b Hi V; cbn [crun map].
  - exists b. split; [reflexivity|]. split; [auto|]. split; [apply mono_refl|constructor].
  - inv V. destruct (cstep_ok q b Hi) as (b1 & E & I1 & M1 & S1); auto. rewrite E. cbn [bind]. destruct (IH b1 I1) as (b2 & E2 & I2 & M2 & S2); auto.
    rewrite E2. cbn [bind]. exists b2. split; [reflexivity|]. split; [auto|]. split; [eapply mono_trans; eauto|]. constructor; auto. eapply stored_mono; eauto.
Qed.

Lemma inv_empty : inv_ok [].
Proof. split; intros k Hk; cbn in Hk; lia. Qed.

Lemma bank_history qs q : Forall valid_q qs -> valid_q q ->
  exists answers b a b' b0, crun qs [] = Ret (answers, b) /\ cstep q b = Ret (a, b') /\ cstep q [] = Ret (a, b0).
Proof.
  intros V Vq. destruct (crun_ok qs [] inv_empty V) as (b & E & I & _). destruct (cstep_ok q b I Vq) as (b' & E' & _). destruct (cstep_ok q [] inv_empty Vq) as (b0 & E0 & _).
  repeat esplit; eauto.
Qed.

Lemma bank_repeat qs1 q qs2 : Forall valid_q qs1 -> valid_q q -> Forall valid_q qs2 ->
  exists a b1 b2 as1 as2, crun (qs1 ++ [q]) [] = Ret (as1 ++ [a], b1) /\ crun qs2 b1 = Ret (as2, b2) /\ cstep q b2 = Ret (a, b2).
Proof.
  intros V1 Vq V2. destruct (crun_ok (qs1 ++ [q]) [] inv_empty) as (b & E & I & _ & S); [apply Forall_app; auto|]. destruct (crun_ok qs2 b I V2) as (b2 & E2 & I2 & M2 & _).
  exists (answer q), b, b2, (map answer qs1), (map answer qs2). rewrite map_app in E. cbn [map] in E. split; [exact E|]. split; [exact E2|]. apply stored_same; auto.
  apply (stored_mono q b b2); auto. apply Forall_app in S. destruct S as (_ & S). inv S. auto.
Qed.

Lemma bank_answers n lambda : 1 <= n -> is_part n lambda ->
  exists L T b b', cstep (QParts n) [] = Ret (AParts L, b) /\ integer_partitions n = Ret L /\
    cstep (QTabs lambda) [] = Ret (ATabs T, b') /\ young_tableaux lambda = Ret T.
Proof.
  intros Hn Hl. pose proof (is_part_sum _ _ Hl) as Hs.
  destruct (cstep_ok (QParts n) [] inv_empty Hn) as (b & E & _). destruct (cstep_ok (QTabs lambda) [] inv_empty) as (b' & E' & _); [cbn; rewrite Hs; auto|].
  cbn [answer] in E, E'. rewrite Hs in E'. exists (plist (kof n)), (map tw (paths (Z.to_nat n) lambda)), b, b'. split; [exact E|]. split; [apply integer_partitions_ok; auto|]. split; [exact E'|].
  apply young_tableaux_ok; auto.
Qed.

(* ---- restriction order ---- *)

Lemma pk_inj k i j : 0 <= i < zlen (plist k) -> 0 <= j < zlen (plist k) -> pk k i = pk k j -> i = j.
Proof.
  intros Hi Hj E. assert (NoDup (plist k)) as N by (eapply sorted_NoDup; [|apply plist_sorted]; apply lex_irrefl). apply (NoDup_znth (plist k) []); auto.
Qed.

Lemma lex_asym a b : lex_greater a b -> lex_greater b a -> False.
Proof.
  intros (i & Hi & A & B) (j & Hj & C & D). destruct (Z.lt_trichotomy i j) as [L|[L|L]].
  - specialize (D i ltac:(lia)). lia.
  - subst. lia.
  - specialize (B j ltac:(lia)). lia.
Qed.

Lemma sorted_nth {A} (R : A -> A -> Prop) d l i j : StronglySorted R l -> 0 <= i < j -> j < zlen l -> R (znth l i d) (znth l j d).
Proof.
  intros S. revert i j. induction S as [|x l S IH F]; intros i j Hi Hj.
  - unfold zlen in Hj; cbn in Hj; lia.
  - rewrite zlen_cons in Hj. rewrite Forall_forall in F. destruct (Z.eq_dec i 0) as [->|Ni].
    + rewrite !znth_cons by lia. destruct (Z.eqb_spec 0 0); [|lia]. destruct (Z.eqb_spec j 0); [lia|]. apply F. apply znth_In. lia.
    + rewrite !znth_cons by lia. destruct (Z.eqb_spec i 0); [lia|]. destruct (Z.eqb_spec j 0); [lia|]. apply IH; lia.
Qed.

Lemma in_pars k l mu : is_part (Z.of_nat k + 1) l -> (1 <= k)%nat -> (In mu (pars k l) <-> is_part (Z.of_nat k) mu /\ contained mu l).
Proof.
  intros Hl Hk. destruct (parents_exact _ _ Hl ltac:(lia)) as (ps & _ & E & _ & H). rewrite (cb_parents_ok _ _ Hl) in E. apply Ret_inj in E.
  destruct k; [lia|]. cbn [pars]. rewrite E, H. replace (Z.of_nat (S k) + 1 - 1) with (Z.of_nat (S k)) by lia. tauto.
Qed.

Lemma ro_complete n : 1 <= n ->
  exists RO b, bank_ro n [] = Ret (RO, b) /\ NoDup RO /\ (forall p, In p RO <-> is_part n p) /\
    (forall pre p post, RO = pre ++ p :: post -> forall q, is_part n q -> lex_greater p q ->
       (forall mu, is_part (n - 1) mu -> contained mu q -> contained mu p) -> In q pre).
Proof.
  intros Hn. destruct (cstep_ok (QRO n) [] inv_empty Hn) as (b & E & _). cbn [cstep answer] in E. destruct (bank_ro n []) as [(RO & b')| | |] eqn:Q; try discriminate.
  cbn [bind fst snd] in E. inversion E; subst. exists (rolist (kof n)), b. split; [reflexivity|]. generalize (kof_n n Hn) as Kn. generalize (kof n) as k. clear Q E b. intros k Kn.
  destruct (roidx_facts k) as (F1 & F2 & F3). change (rolist k) with (map (pk k) (roidx k)).

  assert (forall p, In p (map (pk k) (roidx k)) <-> is_part n p) as I.
  { intros p. rewrite in_map_iff. split.
    - intros (i & <- & Hi). apply F2 in Hi. rewrite <- Kn. apply plist_nth_part. auto.
    - intros Hp. rewrite <- Kn in Hp. apply plist_spec in Hp. destruct (In_znth _ _ [] Hp) as (i & Hi & <-). exists i. split; [reflexivity|]. apply F2. auto. }
  split; [|split; [exact I|]].
  - apply NoDup_map_inj_in; auto. intros x y Hx Hy. apply pk_inj; apply F2; auto.
  - intros pre p post Hd q Hq Hlex Hsub. destruct (map_eq_app _ _ _ _ Hd) as (ipre & irest & Hi & Hpre & Hrest). destruct irest as [|a ipost]; [discriminate|]. cbn [map] in Hrest. inversion Hrest; subst pre p post.
    assert (In a (roidx k)) as Ha by (rewrite Hi; apply in_or_app; right; left; auto). apply F2 in Ha.
    pose proof (proj2 (I q) Hq) as Iq. apply in_map_iff in Iq. destruct Iq as (j & <- & Hj). apply F2 in Hj.
    apply in_map. apply (F3 _ _ _ Hi).
    + destruct (Z.lt_trichotomy a j) as [L|[L|L]]; [lia| |].
      * subst. exfalso. eapply lex_irrefl; eauto.
      * exfalso. eapply lex_asym; [exact Hlex|]. apply (sorted_nth lex_greater []); [apply plist_sorted|lia|lia].
    + unfold rsub. apply forallb_forall. intros mu Hmu. unfold mem.
      destruct (in_dec (list_eq_dec Z.eq_dec) mu (pars k (znth (plist k) a []))) as [|Ni]; [auto|]. exfalso. apply Ni.
      assert (1 <= k)%nat as Hk by (destruct k; [destruct Hmu|lia]).
      rewrite in_pars in Hmu by (auto; apply plist_nth_part; auto). rewrite in_pars by (auto; apply plist_nth_part; auto). split; [tauto|]. apply Hsub; [|tauto]. replace (n - 1) with (Z.of_nat k) by lia. tauto.
Qed.

Lemma valid_q_ex lambda n : 1 <= n -> is_part n lambda -> valid_q (QTabs lambda).
Proof. intros Hn Hl. cbn. rewrite (is_part_sum _ _ Hl). auto. Qed.

Lemma legal_valid q : legal_query q -> valid_q q.
Proof. destruct q; cbn [legal_query]; auto. intros (n & H1 & H2). eapply valid_q_ex; eauto. Qed.

Lemma legal_valid_all qs : Forall legal_query qs -> Forall valid_q qs.
Proof. induction 1; constructor; auto using legal_valid. Qed.

Lemma history_independent qs q : Forall legal_query qs -> legal_query q ->
  exists answers b a b' b0, crun qs [] = Ret (answers, b) /\ cstep q b = Ret (a, b') /\ cstep q [] = Ret (a, b0).
Proof. intros H1 H2. apply bank_history; auto using legal_valid, legal_valid_all. Qed.

Lemma history_repeat qs1 q qs2 : Forall legal_query qs1 -> legal_query q -> Forall legal_query qs2 ->
  exists a b1 b2 as1 as2, crun (qs1 ++ [q]) [] = Ret (as1 ++ [a], b1) /\ crun qs2 b1 = Ret (as2, b2) /\ cstep q b2 = Ret (a, b2).
Proof. intros H1 H2 H3. apply bank_repeat; auto using legal_valid, legal_valid_all. Qed.
