(* The cached combinatorial bank: invariant over all histories, and the RO order. *)
From Coq Require Import ZArith List Bool Lia ZifyBool ZifyNat Sorted Permutation.
From Verif Require Import Model_Base Model_Part Model_Comb Model_Tab Model_CombBank Spec_Perm Spec_Part Spec_Tab
  Proof_Base Proof_Perm Proof_Sn Proof_Part Proof_PartProps Proof_Tab Proof_TabProps.
Import ListNotations.
Open Scope Z_scope.

Definition dobj : obj := mkObj [] [] [].
Definition lvl (b : list lev) (k : nat) : lev := znth b (Z.of_nat k) lev_new.
Definition oref (b : list lev) (k : nat) (id : Z) : obj := znth (lv_ip (lvl b k)) id dobj.
Definition nip (b : list lev) (k : nat) : Z := zlen (lv_ip (lvl b k)).

Lemma foldM_filter_gen {S I} (body g : I -> S -> outcome S) (t : I -> bool) is s :
  (forall i s, In i is -> body i s = if t i then g i s else Ret s) ->
  foldM body is s = foldM g (filter t is) s.
Proof.
  revert s; induction is as [|i is IH]; intros s H; cbn [foldM filter]; [reflexivity|].
  rewrite H by (left; auto). destruct (t i); cbn [foldM bind].
  - destruct (g i s); cbn [bind]; auto. apply IH. intros; apply H; right; auto.
  - apply IH. intros; apply H; right; auto.
Qed.

Lemma lvl_zupd b k l j : (k < length b)%nat -> lvl (zupd b (Z.of_nat k) l) j = if Nat.eqb j k then l else lvl b j.
Proof.
  intros H. unfold lvl. rewrite znth_zupd by (unfold zlen; lia). destruct (Nat.eqb_spec j k), (Z.eqb_spec (Z.of_nat j) (Z.of_nat k)); auto; lia.
Qed.

Lemma key_eq n a b : is_part n a -> is_part n b -> ((ip_hash a =? ip_hash b) && ip_eq a b)%bool = true <-> a = b.
Proof.
  intros Ha Hb. split.
  - rewrite andb_true_iff. intros (_ & H). apply ppos_ext; [eauto|eauto|]. apply ip_eq_rows. auto.
  - intros ->. rewrite Z.eqb_refl. cbn [andb]. apply ip_eq_rows. auto.
Qed.

Lemma map_find_app m x id mu : map_find (m ++ [(x, id)]) mu =
  match map_find m mu with Some v => Some v | None => if (ip_hash x =? ip_hash mu) && ip_eq x mu then Some id else None end.
Proof.
  induction m as [|(y, j) m IH]; cbn [app map_find]; [reflexivity|]. destruct ((ip_hash y =? ip_hash mu) && ip_eq y mu)%bool; auto.
Qed.

(* ---- invariant ---- *)

Definition pars (k : nat) (lambda : list Z) : list (list Z) :=
  match k with O => [] | S _ => map (prem lambda) (corners lambda) end.

Definition psub (b : list lev) (k : nat) (pid : Z) (mu : list Z) : Prop :=
  match k with O => False | S k' => 0 <= pid < nip b k' /\ ob_lambda (oref b k' pid) = mu end.

Definition obj_ok (b : list lev) (k : nat) (o : obj) : Prop :=
  is_part (Z.of_nat k + 1) (ob_lambda o) /\
  (ob_tabs o = [] \/ ob_tabs o = map tw (paths (S k) (ob_lambda o))) /\
  Forall2 (psub b k) (ob_parents o) (pars k (ob_lambda o)).

Definition lev_ok (b : list lev) (k : nat) : Prop :=
  (lv_parts (lvl b k) = [] \/ lv_parts (lvl b k) = plist k) /\
  (forall lambda id, is_part (Z.of_nat k + 1) lambda ->
     (map_find (lv_map (lvl b k)) lambda = Some id <-> 0 <= id < nip b k /\ ob_lambda (oref b k id) = lambda)) /\
  (forall id, 0 <= id < nip b k -> obj_ok b k (oref b k id)).

Definition bank_ok (b : list lev) : Prop := forall k, (k < length b)%nat -> lev_ok b k.

(* objects stay where they are *)
Definition ext (b b' : list lev) : Prop :=
  length b' = length b /\
  forall k id, 0 <= id < nip b k ->
    id < nip b' k /\ ob_lambda (oref b' k id) = ob_lambda (oref b k id) /\ ob_parents (oref b' k id) = ob_parents (oref b k id) /\
    (ob_tabs (oref b k id) <> [] -> ob_tabs (oref b' k id) = ob_tabs (oref b k id)).

Lemma ext_refl b : ext b b.
Proof. split; auto. intros k id H. repeat split; auto; lia. Qed.

Lemma ext_trans a b c : ext a b -> ext b c -> ext a c.
Proof.
  intros (L1 & H1) (L2 & H2). split; [congruence|]. intros k id H. destruct (H1 k id H) as (A & B & C & D).
  destruct (H2 k id ltac:(lia)) as (A' & B' & C' & D'). split; [auto|]. split; [congruence|]. split; [congruence|].
  intros T. specialize (D T). rewrite D'; auto. congruence.
Qed.

Lemma psub_ext b b' k pid mu : ext b b' -> psub b k pid mu -> psub b' k pid mu.
Proof.
  intros (L & E) H. destruct k as [|k]; [exact H|]. destruct H as (H1 & H2). destruct (E k pid H1) as (A & B & _). split; [lia|congruence].
Qed.

Lemma Forall2_psub_ext b b' k l m : ext b b' -> Forall2 (psub b k) l m -> Forall2 (psub b' k) l m.
Proof. intros E H. induction H; constructor; auto. eapply psub_ext; eauto. Qed.

Definition same_pr (b b' : list lev) : Prop :=
  forall j, lv_parts (lvl b' j) = lv_parts (lvl b j) /\ lv_ro (lvl b' j) = lv_ro (lvl b j).

Definition above (k : nat) (b b' : list lev) : Prop := forall j, (k < j)%nat -> lvl b' j = lvl b j.

Lemma rd_lvl b k : (k < length b)%nat -> rd b (Z.of_nat k) = Ret (lvl b k).
Proof. intros H. apply rd_ok. unfold zlen. lia. Qed.

Lemma assert_part k lambda : is_part (Z.of_nat k + 1) lambda -> assert_ (ip_getn lambda =? Z.of_nat k + 1) = Ret tt.
Proof. intros H. rewrite ip_getn_zsum, (is_part_sum _ _ H), Z.eqb_refl. reflexivity. Qed.

(* adding a fresh object at level k *)
Lemma add_obj_ok b k lambda ps : bank_ok b -> (k < length b)%nat -> is_part (Z.of_nat k + 1) lambda ->
  map_find (lv_map (lvl b k)) lambda = None -> Forall2 (psub b k) ps (pars k lambda) ->
  let l := lvl b k in
  let b' := zupd b (Z.of_nat k) (mkLev (lv_ip l ++ [mkObj lambda ps []]) (lv_map l ++ [(lambda, nip b k)]) (lv_parts l) (lv_ro l)) in
  bank_ok b' /\ ext b b' /\ same_pr b b' /\ (forall j, (j <> k)%nat -> lvl b' j = lvl b j) /\
  0 <= nip b k < nip b' k /\ ob_lambda (oref b' k (nip b k)) = lambda.
Proof.
  intros Hb Hk Hl Hf Hps l b'. fold l in Hf.
  assert (forall j, lvl b' j = if Nat.eqb j k then mkLev (lv_ip l ++ [mkObj lambda ps []]) (lv_map l ++ [(lambda, nip b k)]) (lv_parts l) (lv_ro l) else lvl b j) as Lv
    by (intros; apply lvl_zupd; auto).
  assert (forall j, (j <> k)%nat -> lvl b' j = lvl b j) as Lo.
  { intros j Hj. rewrite Lv. destruct (Nat.eqb_spec j k); [contradiction|reflexivity]. }
  assert (lvl b' k = mkLev (lv_ip l ++ [mkObj lambda ps []]) (lv_map l ++ [(lambda, nip b k)]) (lv_parts l) (lv_ro l)) as Lk by (rewrite Lv, Nat.eqb_refl; reflexivity).
  assert (length b' = length b) as Len by (unfold b'; pose proof (zlen_zupd b (Z.of_nat k) (mkLev (lv_ip l ++ [mkObj lambda ps []]) (lv_map l ++ [(lambda, nip b k)]) (lv_parts l) (lv_ro l)) ltac:(unfold zlen; lia)) as Z; unfold zlen in Z; lia).
  assert (nip b' k = nip b k + 1) as Nk by (unfold nip; rewrite Lk; cbn [lv_ip]; rewrite zlen_app; reflexivity).
  assert (0 <= nip b k) as Np by apply zlen_nonneg.
  assert (forall id, 0 <= id -> oref b' k id = if id <? nip b k then oref b k id else if id =? nip b k then mkObj lambda ps [] else dobj) as Ok.
  { intros id Hid. unfold oref. rewrite Lk. cbn [lv_ip]. fold l. rewrite znth_app by lia. fold (nip b k). unfold nip in *. fold l. 
    destruct (Z.ltb_spec id (zlen (lv_ip l))); [reflexivity|]. destruct (Z.eqb_spec id (zlen (lv_ip l))).
    - subst. rewrite Z.sub_diag. reflexivity.
    - unfold znth. apply nth_overflow. cbn. lia. }
  assert (forall j id, (j <> k)%nat -> oref b' j id = oref b j id) as Oo by (intros; unfold oref; rewrite Lo; auto).
  assert (ext b b') as E.
  { split; [exact Len|]. intros j id Hid. destruct (Nat.eq_dec j k) as [->|Ne].
    - rewrite Nk, Ok by lia. destruct (Z.ltb_spec id (nip b k)); [|lia]. repeat split; auto. lia.
    - unfold nip. rewrite Oo, Lo by auto. fold (nip b j). repeat split; auto. lia. }
  split; [|split; [exact E|split; [|split; [exact Lo|split; [lia|]]]]].
  - intros j Hj. rewrite Len in Hj. destruct (Hb j Hj) as (H1 & H2 & H3). destruct (Nat.eq_dec j k) as [->|Ne].
    + split; [rewrite Lk; exact H1|]. fold l in H2. split.
      * intros mu id Hmu. rewrite Lk. cbn [lv_map]. rewrite map_find_app, Nk. destruct (map_find (lv_map l) mu) eqn:F.
        -- apply (H2 mu z Hmu) in F as (F1 & F2). split.
           ++ intros Q. injection Q as <-. rewrite Ok by lia. destruct (Z.ltb_spec z (nip b k)); [|lia]. split; [lia|auto].
           ++ intros (Q1 & Q2). rewrite Ok in Q2 by lia. destruct (Z.ltb_spec id (nip b k)).
              ** assert (map_find (lv_map l) mu = Some id) as F' by (apply H2; [auto|split; [lia|auto]]). 
                 assert (map_find (lv_map l) mu = Some z) as F'' by (apply H2; [auto|split; [lia|auto]]). congruence.
              ** destruct (Z.eqb_spec id (nip b k)); [|lia]. cbn in Q2. subst mu.
                 assert (map_find (lv_map l) lambda = Some z) as F'' by (apply H2; [auto|split; [lia|auto]]). congruence.
        -- split.
           ++ destruct ((ip_hash lambda =? ip_hash mu) && ip_eq lambda mu)%bool eqn:K; [|discriminate].
              apply (key_eq _ _ _ Hl Hmu) in K. intros Q. injection Q as <-. rewrite Ok by lia.
              destruct (Z.ltb_spec (nip b k) (nip b k)); [lia|]. rewrite Z.eqb_refl. split; [lia|exact K].
           ++ intros (Q1 & Q2). rewrite Ok in Q2 by lia. destruct (Z.ltb_spec id (nip b k)).
              ** assert (map_find (lv_map l) mu = Some id) as F' by (apply H2; [auto|split; [lia|auto]]). congruence.
              ** destruct (Z.eqb_spec id (nip b k)); [|lia]. cbn in Q2. rewrite (proj2 (key_eq _ _ _ Hl Hmu) Q2). congruence.
      * intros id Hid. rewrite Nk in Hid. rewrite Ok by lia. destruct (Z.ltb_spec id (nip b k)).
        -- destruct (H3 id ltac:(lia)) as (A & B & C). split; [auto|split; [auto|]]. eapply Forall2_psub_ext; eauto.
        -- destruct (Z.eqb_spec id (nip b k)); [|lia]. split; [exact Hl|]. split; [left; reflexivity|]. cbn [ob_parents ob_lambda]. eapply Forall2_psub_ext; eauto.
    + split; [rewrite Lo; auto|]. split.
      * intros mu id Hmu. unfold nip. rewrite Lo, Oo by auto. apply H2; auto.
      * intros id Hid. unfold nip in Hid. rewrite Lo in Hid by auto. rewrite Oo by auto. destruct (H3 id Hid) as (A & B & C).
        split; [auto|split; [auto|]]. eapply Forall2_psub_ext; eauto.
  - intros j. rewrite Lv. destruct (Nat.eqb_spec j k); subst; auto.
  - rewrite Ok by lia. destruct (Z.ltb_spec (nip b k) (nip b k)); [lia|]. rewrite Z.eqb_refl. reflexivity.
Qed.

Lemma same_pr_trans a b c : same_pr a b -> same_pr b c -> same_pr a c.
Proof. intros H1 H2 j. destruct (H1 j), (H2 j). split; congruence. Qed.
Lemma same_pr_refl a : same_pr a a.
Proof. intros j; auto. Qed.

Lemma get_obj_ok k : forall lambda b, bank_ok b -> (k < length b)%nat -> is_part (Z.of_nat k + 1) lambda ->
  exists id b', get_obj k lambda b = Ret (id, b') /\ bank_ok b' /\ ext b b' /\ same_pr b b' /\ above k b b' /\
    0 <= id < nip b' k /\ ob_lambda (oref b' k id) = lambda.
Proof.
  induction k as [|k IH]; intros lambda b Hb Hk Hl; cbn [get_obj]; rewrite (assert_part _ _ Hl); cbn [bind]; rewrite rd_lvl by auto; cbn [bind];
    destruct (map_find (lv_map (lvl b _)) lambda) as [id|] eqn:F.
  - exists id, b. destruct (Hb _ Hk) as (_ & H2 & _). apply H2 in F; auto.
    split; [reflexivity|]. split; [auto|]. split; [apply ext_refl|]. split; [apply same_pr_refl|]. split; [intros j; auto|]. exact F.
  - cbn [bind]. rewrite ?rd_lvl by auto. cbn [bind]. rewrite wr_ok by (unfold zlen; lia). cbn [bind].
    destruct (add_obj_ok b 0 lambda [] Hb Hk Hl F (Forall2_nil _)) as (A & B & C & D & E1 & E2).
    eexists _, _. split; [reflexivity|]. split; [exact A|]. split; [exact B|]. split; [exact C|]. split; [intros j Hj; apply D; lia|]. split; [exact E1|exact E2].
  - exists id, b. destruct (Hb _ Hk) as (_ & H2 & _). apply H2 in F; auto.
    split; [reflexivity|]. split; [auto|]. split; [apply ext_refl|]. split; [apply same_pr_refl|]. split; [intros j; auto|]. exact F.
  - set (g := fun i (st : list Z * list lev) => let '(ps, b) := st in r <- get_obj k (prem lambda i) b ;; let '(id, b) := r in Ret (ps ++ [id], b)).
    unfold zford, ip_height. rewrite foldM_filter_gen with (g := g) (t := fun i => row lambda (i + 1) <? row lambda i).
    2:{ intros i (ps, b0) Hi. apply in_rev, in_zrange in Hi. rewrite (ip_shortenable_ok (Z.of_nat (S k) + 1)) by (auto; lia). cbn [bind].
        destruct (Z.ltb_spec (row lambda (i + 1)) (row lambda i)); [|reflexivity]. rewrite ip_remove_ok by lia. reflexivity. }
    replace (filter (fun i => row lambda (i + 1) <? row lambda i) (rev (zrange 0 (zlen lambda - 1 + 1)))) with (corners lambda)
      by (unfold corners; replace (zlen lambda - 1 + 1) with (zlen lambda) by lia; reflexivity).
    assert (forall is ps done b0, (forall i, In i is -> In i (corners lambda)) -> bank_ok b0 -> ext b b0 -> same_pr b b0 -> above k b b0 ->
              Forall2 (psub b0 (S k)) ps (map (prem lambda) done) ->
              exists ps' b1, foldM g is (ps, b0) = Ret (ps', b1) /\ bank_ok b1 /\ ext b b1 /\ same_pr b b1 /\ above k b b1 /\
                Forall2 (psub b1 (S k)) ps' (map (prem lambda) (done ++ is))) as G.
    { induction is as [|i is IHi]; intros ps done b0 Hi B0 E0 S0 A0 F0; cbn [foldM].
      - exists ps, b0. rewrite app_nil_r. auto 10.
      - pose proof (Hi i (or_introl eq_refl)) as Ci. apply in_corners in Ci as (Ci1 & Ci2).
        assert (is_part (Z.of_nat k + 1) (prem lambda i)) as Hp.
        { replace (Z.of_nat k + 1) with (Z.of_nat (S k) + 1 - 1) by lia. apply is_part_prem; auto. }
        destruct (IH (prem lambda i) b0 B0 ltac:(destruct E0; lia) Hp) as (id & b1 & E & B1 & X1 & P1 & A1 & N1 & L1).
        unfold g at 1. rewrite E. cbn [bind].
        destruct (IHi (ps ++ [id]) (done ++ [i]) b1) as (ps' & b2 & Q & ?); auto.
        + intros; apply Hi; right; auto.
        + eapply ext_trans; eauto.
        + eapply same_pr_trans; eauto.
        + intros j Hj. rewrite A1 by auto. apply A0; auto.
        + rewrite map_app. apply Forall2_app; [eapply Forall2_psub_ext; eauto|]. constructor; [|constructor]. split; auto.
        + exists ps', b2. rewrite Q. split; [reflexivity|]. rewrite <- app_assoc in H. exact H. }
    destruct (G (corners lambda) [] [] b ltac:(auto) Hb (ext_refl _) (same_pr_refl _) ltac:(intros j; auto) (Forall2_nil _)) as (ps & b1 & E & B1 & X1 & P1 & A1 & F1).
    rewrite E. cbn [bind]. assert ((S k < length b1)%nat) as Hk1 by (destruct X1; lia). rewrite rd_lvl by auto. cbn [bind].
    rewrite wr_ok by (unfold zlen; lia). cbn [bind].
    assert (map_find (lv_map (lvl b1 (S k))) lambda = None) as F' by (rewrite A1 by lia; auto).
    destruct (add_obj_ok b1 (S k) lambda ps B1 Hk1 Hl F' F1) as (A & B & C & D & E1 & E2).
    eexists _, _. split; [reflexivity|]. split; [exact A|]. split; [eapply ext_trans; eauto|]. split; [eapply same_pr_trans; eauto|].
    split; [intros j Hj; rewrite D by lia; apply A1; lia|]. split; [exact E1|exact E2].
Qed.

(* ---- tableaux ---- *)

(* storing the tableaux of an object *)
Lemma set_tabs_ok b k id : bank_ok b -> (k < length b)%nat -> 0 <= id < nip b k -> ob_tabs (oref b k id) = [] ->
  let l := lvl b k in let o := oref b k id in
  let b' := zupd b (Z.of_nat k) (mkLev (zupd (lv_ip l) id (mkObj (ob_lambda o) (ob_parents o) (map tw (paths (S k) (ob_lambda o))))) (lv_map l) (lv_parts l) (lv_ro l)) in
  bank_ok b' /\ ext b b' /\ same_pr b b' /\ (forall j, (j <> k)%nat -> lvl b' j = lvl b j) /\ ob_tabs (oref b' k id) = map tw (paths (S k) (ob_lambda o)).
Proof.
  intros Hb Hk Hid Ht l o b'. set (o' := mkObj (ob_lambda o) (ob_parents o) (map tw (paths (S k) (ob_lambda o)))) in *.
  assert (forall j, lvl b' j = if Nat.eqb j k then mkLev (zupd (lv_ip l) id o') (lv_map l) (lv_parts l) (lv_ro l) else lvl b j) as Lv
    by (intros; apply lvl_zupd; auto).
  assert (forall j, (j <> k)%nat -> lvl b' j = lvl b j) as Lo.
  { intros j Hj. rewrite Lv. destruct (Nat.eqb_spec j k); [contradiction|reflexivity]. }
  assert (lvl b' k = mkLev (zupd (lv_ip l) id o') (lv_map l) (lv_parts l) (lv_ro l)) as Lk by (rewrite Lv, Nat.eqb_refl; reflexivity).
  assert (length b' = length b) as Len by (unfold b'; pose proof (zlen_zupd b (Z.of_nat k) (mkLev (zupd (lv_ip l) id o') (lv_map l) (lv_parts l) (lv_ro l)) ltac:(unfold zlen; lia)) as Z; unfold zlen in Z; lia).
  unfold nip in Hid. fold l in Hid.
  assert (nip b' k = nip b k) as Nk by (unfold nip; rewrite Lk; cbn [lv_ip]; rewrite zlen_zupd by auto; reflexivity).
  assert (forall i, 0 <= i -> oref b' k i = if i =? id then o' else oref b k i) as Ok.
  { intros i Hi. unfold oref. rewrite Lk. cbn [lv_ip]. rewrite znth_zupd by auto. reflexivity. }
  assert (forall j i, (j <> k)%nat -> oref b' j i = oref b j i) as Oo by (intros; unfold oref; rewrite Lo; auto).
  assert (forall j, nip b' j = nip b j) as Nn.
  { intros j. destruct (Nat.eq_dec j k) as [->|Ne]; [exact Nk|]. unfold nip. rewrite Lo; auto. }
  assert (forall i, 0 <= i -> ob_lambda (oref b' k i) = ob_lambda (oref b k i) /\ ob_parents (oref b' k i) = ob_parents (oref b k i)) as Olp.
  { intros i Hi. rewrite Ok by auto. destruct (Z.eqb_spec i id); subst; auto. }
  assert (ext b b') as E.
  { split; [exact Len|]. intros j i Hi. rewrite Nn. destruct (Nat.eq_dec j k) as [->|Ne].
    - destruct (Olp i ltac:(lia)). repeat split; auto; [lia|]. intros T. rewrite Ok by lia. destruct (Z.eqb_spec i id); [subst; contradiction|reflexivity].
    - rewrite Oo by auto. repeat split; auto. lia. }
  split; [|split; [exact E|split; [|split; [exact Lo|]]]].
  - intros j Hj. rewrite Len in Hj. destruct (Hb j Hj) as (H1 & H2 & H3). destruct (Nat.eq_dec j k) as [->|Ne].
    + split; [rewrite Lk; exact H1|]. split.
      * intros mu i Hmu. rewrite Lk, Nk. cbn [lv_map]. fold l in H2. rewrite H2 by auto. split; intros (Q1 & Q2); (split; [auto|]); destruct (Olp i ltac:(lia)); congruence.
      * intros i Hi. rewrite Nk in Hi. destruct (H3 i Hi) as (A & B & C). rewrite Ok by lia. destruct (Z.eqb_spec i id).
        -- subst i. split; [exact A|]. split; [right; reflexivity|]. eapply Forall2_psub_ext; eauto.
        -- split; [auto|split; [auto|]]. eapply Forall2_psub_ext; eauto.
    + split; [rewrite Lo; auto|]. split.
      * intros mu i Hmu. rewrite Nn, Lo, Oo by auto. apply H2; auto.
      * intros i Hi. rewrite Nn in Hi. rewrite Oo by auto. destruct (H3 i Hi) as (A & B & C).
        split; [auto|split; [auto|]]. eapply Forall2_psub_ext; eauto.
  - intros j. rewrite Lv. destruct (Nat.eqb_spec j k); subst; auto.
  - rewrite Ok by lia. rewrite Z.eqb_refl. reflexivity.
Qed.

Lemma get_tabs_ok k : forall id b, bank_ok b -> (k < length b)%nat -> 0 <= id < nip b k ->
  exists b', get_tabs k id b = Ret (map tw (paths (S k) (ob_lambda (oref b k id))), b') /\ bank_ok b' /\ ext b b' /\ same_pr b b' /\ above k b b' /\
    ob_tabs (oref b' k id) = map tw (paths (S k) (ob_lambda (oref b k id))).
Proof.
  induction k as [|k IH]; intros id b Hb Hk Hid; cbn [get_tabs]; rewrite rd_lvl by auto; cbn [bind];
    rewrite (rd_ok _ id dobj) by exact Hid; cbn [bind].
  - fold (oref b 0 id). destruct (Hb _ Hk) as (_ & _ & H3). destruct (H3 id Hid) as (P & T & _). pose proof (is_part_1 _ P) as P1.
    destruct (ob_tabs (oref b 0 id)) eqn:Q.
    + cbn [bind]. rewrite ?rd_lvl by auto. cbn [bind]. rewrite wr_ok by exact Hid. cbn [bind]. rewrite wr_ok by (unfold zlen; lia). cbn [bind].
      destruct (set_tabs_ok b 0 id Hb Hk Hid Q) as (A & B & C & D & E).
      assert ([yt_identity 1] = map tw (paths 1 (ob_lambda (oref b 0 id)))) as Y by (rewrite P1; reflexivity). rewrite Y.
      eexists. split; [reflexivity|]. split; [exact A|]. split; [exact B|]. split; [exact C|]. split; [intros j Hj; apply D; lia|exact E].
    + destruct T as [T|T]; [discriminate|]. exists b. split; [rewrite T; reflexivity|]. split; [auto|]. split; [apply ext_refl|]. split; [apply same_pr_refl|].
      split; [intros j; auto|congruence].
  - fold (oref b (S k) id). destruct (Hb _ Hk) as (_ & _ & H3). destruct (H3 id Hid) as (P & T & F).
    destruct (ob_tabs (oref b (S k) id)) eqn:Q.
    2:{ destruct T as [T|T]; [discriminate|]. exists b. split; [rewrite T; reflexivity|]. split; [auto|]. split; [apply ext_refl|]. split; [apply same_pr_refl|].
        split; [intros j; auto|congruence]. }
    set (lambda := ob_lambda (oref b (S k) id)) in *. cbn [pars] in F.
    match goal with |- context [foldM ?f (ob_parents _) _] => set (g := f) end.
    assert (forall is pids acc b0, (forall i, In i is -> In i (corners lambda)) -> bank_ok b0 -> ext b b0 -> same_pr b b0 -> above k b b0 ->
              Forall2 (psub b0 (S k)) pids (map (prem lambda) is) ->
              exists b1, foldM g pids (acc, b0) = Ret (acc ++ map tw (flat_map (fun r => map (cons r) (paths (S k) (prem lambda r))) is), b1) /\
                 bank_ok b1 /\ ext b b1 /\ same_pr b b1 /\ above k b b1) as G.
    { induction is as [|r is IHi]; intros pids acc b0 Hi B0 E0 S0 A0 F0; cbn [map] in F0; inv F0; cbn [foldM flat_map].
      - exists b0. rewrite app_nil_r. auto 10.
      - pose proof (Hi r (or_introl eq_refl)) as Ci. pose proof (proj1 (in_corners _ _) Ci) as (Ci1 & Ci2). destruct H2 as (N1 & L1).
        unfold g at 1. assert (k < length b0)%nat as Hk0 by (destruct E0; lia). rewrite rd_lvl by auto. cbn [bind]. rewrite (rd_ok _ _ dobj) by exact N1. cbn [bind].
        fold (oref b0 k x). rewrite L1. rewrite (tableau_row_ok _ _ _ P Ci). cbn [bind].
        destruct (IH x b0 B0 Hk0 N1) as (b1 & E1 & B1 & X1 & P1 & A1 & _). rewrite E1. cbn [bind]. rewrite L1.
        assert (is_part (Z.of_nat (S k)) (prem lambda r)) as Hp.
        { replace (Z.of_nat (S k)) with (Z.of_nat (S k) + 1 - 1) by lia. apply is_part_prem; auto. }
        rewrite foldM_map with (g := fun a => yadd a r (Z.of_nat (S k) + 1)).
        + cbn [bind]. destruct (IHi l (acc ++ map (fun a => yadd a r (Z.of_nat (S k) + 1)) (map tw (paths (S k) (prem lambda r)))) b1) as (b2 & Q2 & R2); auto.
          * intros; apply Hi; right; auto.
          * eapply ext_trans; eauto.
          * eapply same_pr_trans; eauto.
          * intros j Hj. rewrite A1 by auto. apply A0; auto.
          * eapply Forall2_psub_ext; eauto.
          * exists b2. split; [|exact R2]. rewrite Q2. f_equal. f_equal. rewrite <- app_assoc. f_equal. rewrite map_app. f_equal.
            rewrite !map_map. apply map_ext_in. intros w Hw. apply paths_len in Hw. cbn [tw]. f_equal. unfold zlen. lia.
        + intros a Ha. apply in_map_iff in Ha as (w & <- & Hw). apply yt_add_ok.
          pose proof (proj1 (paths_standard (S k) _ Hp) _ Hw) as St.
          pose proof (zlen_prem lambda r (is_part_ppos _ _ P) Ci1). rewrite <- zlen_shp.
          rewrite (proj1 (has_shape_shp _ _) (proj1 St)). lia. }
    destruct (G (corners lambda) (ob_parents (oref b (S k) id)) [] b ltac:(auto) Hb (ext_refl _) (same_pr_refl _) ltac:(intros j; auto) F) as (b1 & E & B1 & X1 & P1 & A1).
    rewrite E. cbn [bind app]. assert ((S k < length b1)%nat) as Hk1 by (destruct X1; lia). rewrite rd_lvl by auto. cbn [bind].
    assert (oref b1 (S k) id = oref b (S k) id) as OO by (unfold oref; rewrite A1 by lia; reflexivity).
    assert (nip b1 (S k) = nip b (S k)) as NN by (unfold nip; rewrite A1 by lia; reflexivity).
    rewrite wr_ok by (fold (nip b1 (S k)); lia). cbn [bind]. rewrite wr_ok by (unfold zlen; lia). cbn [bind].
    assert (ob_tabs (oref b1 (S k) id) = []) as Q1 by congruence.
    destruct (set_tabs_ok b1 (S k) id B1 Hk1 ltac:(lia) Q1) as (A & B & C & D & E2). rewrite OO in A, B, C, D, E2. fold lambda in A, B, C, D, E2.
    eexists. split; [reflexivity|]. split; [exact A|]. split; [eapply ext_trans; eauto|]. split; [eapply same_pr_trans; eauto|].
    split; [intros j Hj; rewrite D by lia; apply A1; lia|exact E2].
Qed.

(* ---- partitions ---- *)

Lemma plist_nonempty k : plist k <> [].
Proof.
  intros E. assert (In [Z.of_nat k + 1] (plist k)) as I; [|rewrite E in I; destruct I].
  apply plist_spec. apply decb_part. cbn. destruct (Z.leb_spec 1 (Z.of_nat k + 1)); [|lia]. cbn. lia.
Qed.

(* changing only parts and ro of a level *)
Lemma set_pr_ok b k ps ro : bank_ok b -> (k < length b)%nat -> (ps = [] \/ ps = plist k) ->
  let l := lvl b k in
  let b' := zupd b (Z.of_nat k) (mkLev (lv_ip l) (lv_map l) ps ro) in
  bank_ok b' /\ ext b b' /\ (forall j, (j <> k)%nat -> lvl b' j = lvl b j) /\ lv_parts (lvl b' k) = ps /\ lv_ro (lvl b' k) = ro.
Proof.
  intros Hb Hk Hps l b'.
  assert (forall j, lvl b' j = if Nat.eqb j k then mkLev (lv_ip l) (lv_map l) ps ro else lvl b j) as Lv
    by (intros; apply lvl_zupd; auto).
  assert (forall j, (j <> k)%nat -> lvl b' j = lvl b j) as Lo.
  { intros j Hj. rewrite Lv. destruct (Nat.eqb_spec j k); [contradiction|reflexivity]. }
  assert (lvl b' k = mkLev (lv_ip l) (lv_map l) ps ro) as Lk by (rewrite Lv, Nat.eqb_refl; reflexivity).
  assert (length b' = length b) as Len by (unfold b'; pose proof (zlen_zupd b (Z.of_nat k) (mkLev (lv_ip l) (lv_map l) ps ro) ltac:(unfold zlen; lia)) as Z; unfold zlen in Z; lia).
  assert (forall j, lv_ip (lvl b' j) = lv_ip (lvl b j) /\ lv_map (lvl b' j) = lv_map (lvl b j)) as I.
  { intros j. rewrite Lv. destruct (Nat.eqb_spec j k); subst; auto. }
  assert (ext b b') as E.
  { split; auto. intros j id Hid. unfold nip, oref. rewrite (proj1 (I j)). repeat split; auto. apply Hid. }
  split; [|split; [exact E|split; [exact Lo|rewrite Lk; auto]]].
  intros j Hj. rewrite Len in Hj. destruct (Hb j Hj) as (H1 & H2 & H3). split.
  - rewrite Lv. destruct (Nat.eqb_spec j k); subst; auto.
  - unfold nip, oref. destruct (I j) as (-> & ->). split; auto. intros id Hid. destruct (H3 id Hid) as (A & B & C). split; [auto|split; [auto|]].
    eapply Forall2_psub_ext; eauto.
Qed.

Definition same_ro (b b' : list lev) : Prop := forall j, lv_ro (lvl b' j) = lv_ro (lvl b j).
Definition keep_parts (b b' : list lev) : Prop := forall j, lv_parts (lvl b j) <> [] -> lv_parts (lvl b' j) = lv_parts (lvl b j).

Lemma get_parts_ok k : forall b, bank_ok b -> (k < length b)%nat ->
  exists b', get_parts k b = Ret (plist k, b') /\ bank_ok b' /\ ext b b' /\ same_ro b b' /\ keep_parts b b' /\ above k b b' /\ lv_parts (lvl b' k) = plist k.
Proof.
  induction k as [|k IH]; intros b Hb Hk; cbn [get_parts]; rewrite rd_lvl by auto; cbn [bind];
    destruct (Hb _ Hk) as (H1 & _ & _).
  - destruct (lv_parts (lvl b 0)) eqn:Q.
    + cbn [bind]. rewrite ?rd_lvl by auto. cbn [bind]. rewrite wr_ok by (unfold zlen; lia). cbn [bind].
      destruct (set_pr_ok b 0 (plist 0) (lv_ro (lvl b 0)) Hb Hk (or_intror eq_refl)) as (A & B & C & D & E).
      eexists. split; [reflexivity|]. split; [exact A|]. split; [exact B|]. split; [|split; [|split; [|exact D]]].
      * intros j. destruct (Nat.eq_dec j 0) as [->|Ne]; [exact E|]. rewrite C; auto.
      * intros j Hj. destruct (Nat.eq_dec j 0) as [->|Ne]; [congruence|]. rewrite C; auto.
      * intros j Hj. apply C. lia.
    + destruct H1 as [H1|H1]; [discriminate|]. exists b. rewrite H1 in *. split; [reflexivity|]. split; [auto|]. split; [apply ext_refl|]. split; [intros j; auto|]. split; [intros j; auto|]. split; [intros j; auto|auto].
  - destruct (lv_parts (lvl b (S k))) eqn:Q.
    + destruct (IH b Hb ltac:(lia)) as (b1 & E1 & B1 & X1 & R1 & K1 & A1 & _). rewrite E1. cbn [bind].
      rewrite foldM_flat_map with (g := pchildren).
      2:{ intros p Hp. apply cb_children_ok. apply plist_spec in Hp. eapply part_len_pos; eauto. lia. }
      cbn [bind app]. assert (S k < length b1)%nat as Hk1 by (destruct X1; lia).
      rewrite rd_lvl by auto. cbn [bind]. rewrite wr_ok by (unfold zlen; lia). cbn [bind].
      destruct (set_pr_ok b1 (S k) (plist (S k)) (lv_ro (lvl b1 (S k))) B1 Hk1 (or_intror eq_refl)) as (A & B & C & D & E).
      eexists. split; [reflexivity|]. split; [exact A|]. split; [eapply ext_trans; eauto|]. split; [|split; [|split; [|exact D]]].
      * intros j. rewrite <- R1. destruct (Nat.eq_dec j (S k)) as [->|Ne]; [exact E|]. rewrite C; auto.
      * intros j Hj. destruct (Nat.eq_dec j (S k)) as [->|Ne]; [congruence|]. rewrite C; auto.
      * intros j Hj. rewrite C by lia. apply A1. lia.
    + destruct H1 as [H1|H1]; [discriminate|]. exists b. rewrite H1 in *. split; [reflexivity|]. split; [auto|]. split; [apply ext_refl|]. split; [intros j; auto|]. split; [intros j; auto|]. split; [intros j; auto|auto].
Qed.

(* ---- the RO order, as a pure function of the relation "all parents of j are parents of i" ---- *)

Fixpoint rop (fuel : nat) (N : Z) (sub : Z -> Z -> bool) (i : Z) (st : list bool * list Z) : list bool * list Z :=
  match fuel with
  | O => st
  | S fuel' =>
      let st1 := fold_left (fun st j => if znth (fst st) j false then st else if sub i j then rop fuel' N sub j st else st)
                   (zrange (i + 1) N) (zupd (fst st) i true, snd st) in
      (fst st1, snd st1 ++ [i])
  end.

Definition mem (l : list Z) (L : list (list Z)) : bool := if in_dec (list_eq_dec Z.eq_dec) l L then true else false.

Definition rsub (k : nat) (i j : Z) : bool :=
  forallb (fun mu => mem mu (pars k (znth (plist k) i []))) (pars k (znth (plist k) j [])).

Definition roidx (k : nat) : list Z :=
  snd (fold_left (fun st i => if znth (fst st) i false then st else rop (S (length (plist k))) (zlen (plist k)) (rsub k) i st)
         (zrange 0 (zlen (plist k))) (repeat false (length (plist k)), [])).

Definition rolist (k : nat) : list (list Z) := map (fun i => znth (plist k) i []) (roidx k).

Lemma NoDup_app_snoc {A} (l : list A) x : NoDup l -> ~ In x l -> NoDup (l ++ [x]).
Proof.
  intros H1 H2. apply NoDup_rev in H1. rewrite <- (rev_involutive (l ++ [x])). apply NoDup_rev. rewrite rev_app_distr. cbn. constructor; auto. rewrite <- in_rev. auto.
Qed.

Section RO.
Variable N : Z.
Variable sub : Z -> Z -> bool.

(* indices on the current recursion path: S *)
Definition RI (S : list Z) (used : list bool) (out : list Z) : Prop :=
  zlen used = N /\ NoDup out /\
  (forall j, 0 <= j < N -> (znth used j false = true <-> In j out \/ In j S)) /\
  (forall j, In j out -> 0 <= j < N) /\
  (forall pre a post, out = pre ++ a :: post -> forall b, a < b < N -> sub a b = true -> In b pre).

Lemma RI_len S used out : RI S used out -> zlen used = N.
Proof. intros H; apply H. Qed.

Lemma fold_left_inv {A B} (P : A -> Prop) (f : A -> B -> A) l a : P a -> (forall a b, In b l -> P a -> P (f a b)) -> P (fold_left f l a).
Proof. revert a; induction l as [|b l IH]; intros a Pa H; cbn; auto. apply IH; [apply H; [left|]; auto|intros; apply H; auto; right; auto]. Qed.

Lemma rop_inv fuel : forall i S used out, 0 <= i < N -> N - i <= Z.of_nat fuel -> RI S used out -> znth used i false = false -> (forall s, In s S -> 0 <= s < i) ->
  exists used' seg, rop fuel N sub i (used, out) = (used', out ++ seg) /\ RI S used' (out ++ seg) /\ In i seg /\ (forall x, In x seg -> i <= x).
Proof.
  induction fuel as [|fuel IH]; intros i S used out Hi Hf HI Hu HS; [lia|].
  cbn [rop fst snd].
  assert (~ In i out /\ ~ In i S) as (No & Ns).
  { destruct HI as (_ & _ & H & _). split; intros K; assert (znth used i false = true) by (apply H; auto); congruence. }
  assert (forall hi, i + 1 <= hi <= N -> exists used' seg,
     fold_left (fun st j => if znth (fst st) j false then st else if sub i j then rop fuel N sub j st else st) (zrange (i + 1) hi) (zupd used i true, out)
       = (used', out ++ seg) /\ RI (i :: S) used' (out ++ seg) /\ (forall x, In x seg -> i < x) /\
       (forall j, i < j < hi -> sub i j = true -> In j (out ++ seg))) as L.
  { intros hi Hhi. assert (exists m, hi = i + 1 + Z.of_nat m) as (m & ->) by (exists (Z.to_nat (hi - (i + 1))); lia).
    induction m as [|m IHm].
    - rewrite zrange_nil by lia. cbn [fold_left]. exists (zupd used i true), []. rewrite app_nil_r. split; [reflexivity|]. split; [|split; [intros x []|intros; lia]].
      destruct HI as (A & B & C & D & E). split; [rewrite zlen_zupd; lia|]. split; [auto|]. split; [|split; [auto|auto]].
      intros j Hj. rewrite znth_zupd by lia. destruct (Z.eqb_spec j i).
      + subst. split; auto. intros _. right. left. reflexivity.
      + rewrite C by auto. cbn [In]. intuition congruence.
    - destruct (IHm ltac:(lia)) as (used1 & seg1 & E1 & R1 & G1 & S1).
      replace (i + 1 + Z.of_nat (Datatypes.S m)) with (i + 1 + Z.of_nat m + 1) by lia. rewrite zrange_snoc by lia. rewrite fold_left_app, E1. cbn [fold_left fst].
      set (j := i + 1 + Z.of_nat m) in *. destruct (znth used1 j false) eqn:Uj.
      + exists used1, seg1. split; [reflexivity|]. split; [auto|]. split; [auto|]. intros j' Hj' Sj. destruct (Z.eq_dec j' j); [|apply S1; auto; lia].
        subst j'. destruct R1 as (_ & _ & C & _). apply C in Uj; [|lia]. destruct Uj as [Uj|[Uj|Uj]]; [auto|lia|specialize (HS _ Uj); lia].
      + destruct (sub i j) eqn:Sj.
        * destruct (IH j (i :: S) used1 (out ++ seg1)) as (used2 & seg2 & E2 & R2 & In2 & G2); auto; [lia|lia| |].
          { intros s [<-|Hs]; [lia|]. specialize (HS _ Hs). lia. }
          exists used2, (seg1 ++ seg2). rewrite E2, app_assoc. split; [reflexivity|]. split; [auto|]. split.
          { intros x Hx. apply in_app_iff in Hx as [Hx|Hx]; [auto|]. specialize (G2 x Hx). lia. }
          intros j' Hj' Sj'. apply in_app_iff. destruct (Z.eq_dec j' j); [subst; auto|]. left. apply S1; auto. lia.
        * exists used1, seg1. split; [reflexivity|]. split; [auto|]. split; [auto|]. intros j' Hj' Sj'.
          destruct (Z.eq_dec j' j); [subst; congruence|]. apply S1; auto. lia. }
  destruct (L N ltac:(lia)) as (used1 & seg1 & E1 & R1 & G1 & S1). rewrite E1. cbn [fst snd].
  assert (~ In i (out ++ seg1)) as No1.
  { rewrite in_app_iff. intros [K|K]; [auto|]. specialize (G1 _ K). lia. }
  exists used1, (seg1 ++ [i]). rewrite <- app_assoc. split; [reflexivity|]. split; [|split].
  - destruct R1 as (A & B & C & D & E). rewrite app_assoc. split; [auto|]. split; [|split; [|split]].
    + apply NoDup_app_snoc; auto.
    + intros j Hj. rewrite C, (in_app_iff (out ++ seg1)) by auto. cbn [In]. tauto.
    + intros j Hj. apply in_app_iff in Hj as [Hj|[<-|[]]]; auto.
    + intros pre a post Q b Hb Sb. destruct post as [|p post] using rev_ind.
      * apply app_inj_tail in Q as (Q & <-). rewrite <- Q. apply S1; auto.
      * clear IHpost. rewrite app_comm_cons, app_assoc in Q. apply app_inj_tail in Q as (Q & _). eapply E; eauto.
  - apply in_app_iff. right. left. reflexivity.
  - intros x Hx. apply in_app_iff in Hx as [Hx|[<-|[]]]; [specialize (G1 x Hx)|]; lia.
Qed.

Lemma rop_all : 0 <= N -> 
  let r := fold_left (fun st i => if znth (fst st) i false then st else rop (S (Z.to_nat N)) N sub i st) (zrange 0 N) (repeat false (Z.to_nat N), []) in
  RI [] (fst r) (snd r) /\ forall j, 0 <= j < N -> In j (snd r).
Proof.
  intros HN. cbv zeta.
  assert (forall hi, 0 <= hi <= N -> let r := fold_left (fun st i => if znth (fst st) i false then st else rop (S (Z.to_nat N)) N sub i st) (zrange 0 hi) (repeat false (Z.to_nat N), []) in
     RI [] (fst r) (snd r) /\ forall j, 0 <= j < hi -> In j (snd r)) as L; [|apply (L N); lia].
  intros hi Hhi. assert (exists m, hi = Z.of_nat m) as (m & ->) by (exists (Z.to_nat hi); lia). cbv zeta. induction m as [|m IHm].
  - rewrite zrange_nil by lia. cbn [fold_left fst snd]. split; [|intros; lia]. split; [rewrite zlen_repeat; lia|]. split; [constructor|]. split; [|split].
    + intros j Hj. rewrite znth_repeat by lia. cbn. intuition congruence.
    + intros j [].
    + intros pre a post Q. destruct pre; discriminate.
  - destruct IHm as (R & A); [lia|]. replace (Z.of_nat (S m)) with (Z.of_nat m + 1) by lia. rewrite zrange_snoc by lia. rewrite fold_left_app. cbn [fold_left].
    set (r := fold_left _ (zrange 0 (Z.of_nat m)) _) in *. destruct r as (used, out). cbn [fst snd] in *. destruct (znth used (Z.of_nat m) false) eqn:U.
    + cbn [fst snd]. split; [auto|]. intros j Hj. destruct (Z.eq_dec j (Z.of_nat m)); [|apply A; lia]. subst.
      destruct R as (_ & _ & C & _). apply C in U; [|lia]. destruct U as [U|[]]; auto.
    + destruct (rop_inv (S (Z.to_nat N)) (Z.of_nat m) [] used out) as (used' & seg & E & R' & I & G); auto; [lia|lia|intros s []|].
      rewrite E. cbn [fst snd]. split; [auto|]. intros j Hj. apply in_app_iff. destruct (Z.eq_dec j (Z.of_nat m)); [subst; auto|]. left. apply A. lia.
Qed.
End RO.

(* ---- the cached code computes rop ---- *)

Lemma plist_nth_part k i : 0 <= i < zlen (plist k) -> is_part (Z.of_nat k + 1) (znth (plist k) i []).
Proof. intros H. apply plist_spec. apply znth_In. auto. Qed.

Lemma obj_parents_ok k i b : bank_ok b -> (k < length b)%nat -> lv_parts (lvl b k) = plist k -> 0 <= i < zlen (plist k) ->
  exists ps b', obj_parents k i b = Ret (ps, b') /\ bank_ok b' /\ ext b b' /\ same_pr b b' /\ Forall2 (psub b' k) ps (pars k (znth (plist k) i [])).
Proof.
  intros Hb Hk Hp Hi. unfold obj_parents. rewrite rd_lvl by auto. cbn [bind]. rewrite Hp, (rd_ok _ i []) by auto. cbn [bind].
  destruct (get_obj_ok k (znth (plist k) i []) b Hb Hk (plist_nth_part k i Hi)) as (id & b1 & E & B1 & X1 & S1 & A1 & N1 & L1).
  rewrite E. cbn [bind]. assert (k < length b1)%nat as Hk1 by (destruct X1; lia). rewrite rd_lvl by auto. cbn [bind]. rewrite (rd_ok _ id dobj) by exact N1. cbn [bind].
  exists (ob_parents (oref b1 k id)), b1. split; [reflexivity|]. split; [auto|]. split; [auto|]. split; [auto|].
  destruct (B1 k Hk1) as (_ & _ & H3). destruct (H3 id N1) as (_ & _ & F). rewrite L1 in F. exact F.
Qed.

Lemma psub_inj b k p p' mu : bank_ok b -> (k < length b)%nat -> psub b k p mu -> psub b k p' mu -> p = p'.
Proof.
  intros Hb Hk H H'. destruct k as [|k]; [destruct H|]. destruct H as (H1 & H2), H' as (H1' & H2').
  destruct (Hb k ltac:(lia)) as (_ & F & O). destruct (O p H1) as (P & _). rewrite H2 in P.
  assert (map_find (lv_map (lvl b k)) mu = Some p) by (apply F; auto). assert (map_find (lv_map (lvl b k)) mu = Some p') by (apply F; auto). congruence.
Qed.

Lemma psub_fun b k p mu mu' : psub b k p mu -> psub b k p mu' -> mu = mu'.
Proof. destruct k; [intros []|]. intros (_ & A) (_ & B). congruence. Qed.

Lemma existsb_mem b k p mu is L : bank_ok b -> (k < length b)%nat -> psub b k p mu -> Forall2 (psub b k) is L -> existsb (Z.eqb p) is = mem mu L.
Proof.
  intros Hb Hk Hp F. apply eq_true_iff_eq. rewrite existsb_exists. unfold mem. destruct (in_dec (list_eq_dec Z.eq_dec) mu L) as [I|I].
  - split; auto. intros _. induction F; [destruct I|]. destruct I as [->|I].
    + exists x. split; [left; auto|]. apply Z.eqb_eq. eapply psub_inj; eauto.
    + destruct (IHF I) as (y' & ? & ?). exists y'. split; [right|]; auto.
  - split; [|discriminate]. intros (x & Hx & E). apply Z.eqb_eq in E. subst x. exfalso. apply I. clear I. induction F; [destruct Hx|].
    destruct Hx as [->|Hx]; [left; eapply psub_fun; eauto|right; auto].
Qed.

Lemma all_in_mem b k is Li js Lj : bank_ok b -> (k < length b)%nat -> Forall2 (psub b k) is Li -> Forall2 (psub b k) js Lj ->
  all_in js is = forallb (fun mu => mem mu Li) Lj.
Proof.
  intros Hb Hk Fi Fj. unfold all_in. induction Fj; cbn [forallb]; [reflexivity|]. rewrite IHFj. f_equal. eapply existsb_mem; eauto.
Qed.

Definition same_parts (b b' : list lev) : Prop := forall j, lv_parts (lvl b' j) = lv_parts (lvl b j).
Definition ro_else (k : nat) (b b' : list lev) : Prop := forall j, j <> k -> lv_ro (lvl b' j) = lv_ro (lvl b j).
Definition pk (k : nat) (i : Z) : list Z := znth (plist k) i [].

Lemma propose_ok k fuel : forall i used b out, bank_ok b -> (k < length b)%nat -> lv_parts (lvl b k) = plist k ->
  zlen used = zlen (plist k) -> 0 <= i < zlen (plist k) -> zlen (plist k) - i <= Z.of_nat fuel -> lv_ro (lvl b k) = map (pk k) out ->
  let r := rop fuel (zlen (plist k)) (rsub k) i (used, out) in
  exists b', propose_ro fuel k (zlen (plist k)) i (used, b) = Ret (fst r, b') /\ bank_ok b' /\ ext b b' /\ same_parts b b' /\ ro_else k b b' /\
    lv_ro (lvl b' k) = map (pk k) (snd r) /\ zlen (fst r) = zlen (plist k).
Proof.
  induction fuel as [|fuel IH]; intros i used b out Hb Hk Hp Hu Hi Hf Hr; [lia|]. set (N := zlen (plist k)) in *.
  cbn [rop propose_ro fst snd]. rewrite wr_ok by lia. cbn [bind].
  destruct (obj_parents_ok k i b Hb Hk Hp Hi) as (subs & b1 & E1 & B1 & X1 & P1 & F1). rewrite E1. cbn [bind].
  match goal with |- context [zfor (i + 1) N ?f _] => set (body := f) end.
  set (g := fun (st : list bool * list Z) j => if znth (fst st) j false then st else if rsub k i j then rop fuel N (rsub k) j st else st).
  assert (k < length b1)%nat as Hk1 by (destruct X1; lia).
  assert (forall m, i + 1 + Z.of_nat m <= N -> let r := fold_left g (zrange (i + 1) (i + 1 + Z.of_nat m)) (zupd used i true, out) in
     exists b', zfor (i + 1) (i + 1 + Z.of_nat m) body (zupd used i true, b1) = Ret (fst r, b') /\ bank_ok b' /\ ext b1 b' /\ same_parts b b' /\ ro_else k b b' /\
       lv_ro (lvl b' k) = map (pk k) (snd r) /\ zlen (fst r) = N) as L.
  { induction m as [|m IHm]; intros Hm; cbv zeta.
    - rewrite zfor_nil by lia. rewrite zrange_nil by lia. cbn [fold_left fst snd]. exists b1. split; [reflexivity|]. split; [auto|]. split; [apply ext_refl|].
      split; [intros j; apply P1|]. split; [intros j _; apply P1|]. split; [rewrite (proj2 (P1 k)); auto|rewrite zlen_zupd; lia].
    - destruct (IHm ltac:(lia)) as (b2 & E2 & B2 & X2 & P2 & R2 & O2 & L2).
      replace (i + 1 + Z.of_nat (S m)) with (i + 1 + Z.of_nat m + 1) by lia. rewrite zfor_snoc, zrange_snoc by lia. rewrite E2. cbn [bind]. rewrite fold_left_app. cbn [fold_left].
      set (st := fold_left g (zrange (i + 1) (i + 1 + Z.of_nat m)) (zupd used i true, out)) in *. destruct st as (used2, out2). cbn [fst snd] in *.
      set (j := i + 1 + Z.of_nat m) in *. unfold body at 1. rewrite (rd_ok used2 j false) by lia. cbn [bind]. unfold g. cbn [fst].
      destruct (znth used2 j false).
      + exists b2. split; [reflexivity|]. auto 10.
      + assert (k < length b2)%nat as Hk2 by (destruct X2; lia).
        destruct (obj_parents_ok k j b2 B2 Hk2 ltac:(rewrite P2; auto) ltac:(fold N; lia)) as (jsubs & b3 & E3 & B3 & X3 & P3 & F3). rewrite E3. cbn [bind].
        assert (k < length b3)%nat as Hk3 by (destruct X3; lia).
        rewrite (all_in_mem b3 k subs (pars k (pk k i)) jsubs (pars k (pk k j)) B3 Hk3).
        2:{ eapply Forall2_psub_ext; [|exact F1]. eapply ext_trans; eauto. }
        2:{ exact F3. }
        change (forallb (fun mu => mem mu (pars k (pk k i))) (pars k (pk k j))) with (rsub k i j). destruct (rsub k i j).
        * destruct (IH j used2 b3 out2 B3 Hk3) as (b4 & E4 & B4 & X4 & P4 & R4 & O4 & L4); try (fold N; lia); auto.
          { rewrite (proj1 (P3 k)), P2. auto. }
          { rewrite (proj2 (P3 k)). auto. }
          exists b4. split; [exact E4|]. split; [auto|]. split; [eapply ext_trans; [exact X2|eapply ext_trans; eauto]|].
          split; [intros q; rewrite P4, (proj1 (P3 q)), P2; reflexivity|]. split; [intros q Hq; rewrite R4 by auto; rewrite (proj2 (P3 q)); apply R2; auto|]. auto.
        * exists b3. split; [reflexivity|]. split; [auto|]. split; [eapply ext_trans; eauto|]. cbn [fst snd].
          split; [intros q; rewrite (proj1 (P3 q)), P2; reflexivity|]. split; [intros q Hq; rewrite (proj2 (P3 q)); apply R2; auto|].
          split; [rewrite (proj2 (P3 k)); auto|auto]. }
  destruct (L (Z.to_nat (N - (i + 1))) ltac:(lia)) as (b2 & E2 & B2 & X2 & P2 & R2 & O2 & L2). replace (i + 1 + Z.of_nat (Z.to_nat (N - (i + 1)))) with N in * by lia.
  rewrite E2. cbn [bind]. assert (k < length b2)%nat as Hk2 by (destruct X2; lia). rewrite rd_lvl by auto. cbn [bind]. rewrite P2, Hp. rewrite (rd_ok _ i []) by (fold N; lia). cbn [bind].
  rewrite wr_ok by (unfold zlen; lia). cbn [bind].
  destruct (set_pr_ok b2 k (plist k) (lv_ro (lvl b2 k) ++ [pk k i]) B2 Hk2 (or_intror eq_refl)) as (A & B & C & D & E).
  cbn [fst snd]. fold g. eexists. split; [reflexivity|]. split; [exact A|]. split; [eapply ext_trans; [exact X1|eapply ext_trans; eauto]|].
  split; [|split; [|split]].
  - intros q. destruct (Nat.eq_dec q k) as [->|Ne]; [transitivity (plist k); [exact D|congruence]|]. rewrite C by auto. apply P2.
  - intros q Hq. rewrite C by auto. apply R2. auto.
  - rewrite map_app. transitivity (lv_ro (lvl b2 k) ++ [pk k i]); [exact E|]. rewrite O2. reflexivity.
  - exact L2.
Qed.

Lemma plist_len_pos k : 1 <= zlen (plist k).
Proof. pose proof (plist_nonempty k). destruct (plist k); [congruence|]. rewrite zlen_cons. pose proof (zlen_nonneg l0). lia. Qed.

Lemma roidx_facts k : NoDup (roidx k) /\ (forall i, In i (roidx k) <-> 0 <= i < zlen (plist k)) /\
  (forall pre a post, roidx k = pre ++ a :: post -> forall b, a < b < zlen (plist k) -> rsub k a b = true -> In b pre).
Proof.
  pose proof (plist_len_pos k). pose proof (rop_all (zlen (plist k)) (rsub k) ltac:(lia)) as R. cbv zeta in R.
  replace (Z.to_nat (zlen (plist k))) with (length (plist k)) in R by (unfold zlen; lia). fold (roidx k) in R.
  destruct R as ((_ & R1 & _ & R2 & R3) & R4). split; [auto|]. split; [|auto]. intros i. split; auto.
Qed.

Lemma rolist_nonempty k : rolist k <> [].
Proof.
  intros E. pose proof (plist_len_pos k). destruct (roidx_facts k) as (_ & I & _). specialize (proj2 (I 0) ltac:(lia)). intros K.
  assert (In (pk k 0) (rolist k)) as Q by (apply (in_map (pk k) (roidx k) 0 K)). rewrite E in Q. destruct Q.
Qed.

Definition ro_ok (b : list lev) : Prop := forall k, (k < length b)%nat -> lv_ro (lvl b k) = [] \/ lv_ro (lvl b k) = rolist k.
Definition keep_ro (b b' : list lev) : Prop := forall j, lv_ro (lvl b j) <> [] -> lv_ro (lvl b' j) = lv_ro (lvl b j).

Lemma get_ro_ok k b : bank_ok b -> ro_ok b -> (k < length b)%nat ->
  exists b', get_ro k b = Ret (rolist k, b') /\ bank_ok b' /\ ro_ok b' /\ ext b b' /\ keep_parts b b' /\ keep_ro b b' /\ lv_ro (lvl b' k) = rolist k.
Proof.
  intros Hb Hro Hk. unfold get_ro. rewrite rd_lvl by auto. cbn [bind]. destruct (lv_ro (lvl b k)) eqn:Q.
  2:{ destruct (Hro k Hk) as [T|T]; [congruence|]. exists b. rewrite <- T, <- Q. split; [reflexivity|]. split; [auto|]. split; [auto|]. split; [apply ext_refl|].
      split; [intros j; auto|]. split; [intros j; auto|auto]. }
  destruct (get_parts_ok k b Hb Hk) as (b1 & E1 & B1 & X1 & R1 & K1 & A1 & P1). rewrite E1. cbn [bind].
  set (N := zlen (plist k)). match goal with |- context [zfor 0 N ?f _] => set (body := f) end.
  set (g := fun (st : list bool * list Z) i => if znth (fst st) i false then st else rop (S (length (plist k))) N (rsub k) i st).
  assert (k < length b1)%nat as Hk1 by (destruct X1; lia).
  assert (forall m, Z.of_nat m <= N -> let r := fold_left g (zrange 0 (Z.of_nat m)) (repeat false (length (plist k)), []) in
     exists b', zfor 0 (Z.of_nat m) body (repeat false (length (plist k)), b1) = Ret (fst r, b') /\ bank_ok b' /\ ext b1 b' /\ same_parts b1 b' /\ ro_else k b1 b' /\
       lv_ro (lvl b' k) = map (pk k) (snd r) /\ zlen (fst r) = N) as L.
  { induction m as [|m IHm]; intros Hm; cbv zeta.
    - rewrite zfor_nil by lia. rewrite zrange_nil by lia. cbn [fold_left fst snd]. exists b1. split; [reflexivity|]. split; [auto|]. split; [apply ext_refl|].
      split; [intros j; auto|]. split; [intros j _; auto|]. split; [rewrite R1; auto|rewrite zlen_repeat; reflexivity].
    - destruct (IHm ltac:(lia)) as (b2 & E2 & B2 & X2 & P2 & R2 & O2 & L2).
      replace (Z.of_nat (S m)) with (Z.of_nat m + 1) by lia. rewrite zfor_snoc, zrange_snoc by lia. rewrite E2. cbn [bind]. rewrite fold_left_app. cbn [fold_left].
      set (st := fold_left g (zrange 0 (Z.of_nat m)) (repeat false (length (plist k)), [])) in *. destruct st as (used2, out2). cbn [fst snd] in *.
      unfold body at 1. rewrite (rd_ok used2 (Z.of_nat m) false) by lia. cbn [bind]. unfold g. cbn [fst].
      destruct (znth used2 (Z.of_nat m) false).
      + exists b2. split; [reflexivity|]. auto 10.
      + assert (k < length b2)%nat as Hk2 by (destruct X2; lia).
        destruct (propose_ok k (S (length (plist k))) (Z.of_nat m) used2 b2 out2 B2 Hk2) as (b3 & E3 & B3 & X3 & P3 & R3 & O3 & L3); auto.
        { rewrite P2. auto. }
        { fold N. lia. }
        { fold N. unfold N, zlen. lia. }
        exists b3. split; [exact E3|]. split; [auto|]. split; [eapply ext_trans; eauto|]. split; [intros q; rewrite P3, P2; reflexivity|].
        split; [intros q Hq; rewrite R3 by auto; apply R2; auto|]. split; auto. }
  destruct (L (length (plist k)) ltac:(unfold N, zlen; lia)) as (b2 & E2 & B2 & X2 & P2 & R2 & O2 & L2).
  change (Z.of_nat (length (plist k))) with N in *. rewrite E2. cbn [bind]. assert (k < length b2)%nat as Hk2 by (destruct X2; lia). rewrite rd_lvl by auto. cbn [bind].
  assert (lv_ro (lvl b2 k) = rolist k) as RR by exact O2. exists b2. rewrite RR. split; [reflexivity|]. split; [auto|].
  split; [|split; [eapply ext_trans; eauto|split; [|split; [|auto]]]].
  - intros j Hj. destruct (Nat.eq_dec j k) as [->|Ne]; [right; auto|]. rewrite R2, R1 by auto. apply Hro. destruct X1, X2; lia.
  - intros j Hj. rewrite P2. apply K1. auto.
  - intros j Hj. destruct (Nat.eq_dec j k) as [->|Ne]; [congruence|]. rewrite R2 by auto. apply R1.
Qed.
