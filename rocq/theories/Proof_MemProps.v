(* Value semantics of Permutation and IntegerPartition programs, and what breaks it: C61, C73. *)
From Coq Require Import ZArith List Bool Lia.
From Verif Require Import Model_Base Spec_Mem Model_Mem Proof_Base Proof_Mem Proof_Mem2.
Import ListNotations.
Open Scope Z_scope.

Lemma rel_dead s st : rel s st -> rel (Mem (heap s ++ [None]) (vars s)) st.
Proof.
  intros [R1 R2 R3]. split; cbn [heap vars]; auto.
  - intros v. specialize (R1 v). unfold holds in *. destruct (vars s v); destruct (st v) as [[]|]; auto.
    destruct R1 as [b [E1 E2]]. exists b. split; [auto|]. now apply rd_app_l.
  - intros b c Hc. apply (R3 b c). destruct (rd_inv _ _ _ Hc) as [Hb _]. rewrite zlen_snoc in Hb.
    rewrite (rd_ok _ _ None) in Hc by (rewrite zlen_snoc; lia). rewrite znth_app in Hc by lia.
    destruct (Z.ltb_spec b (zlen (heap s))).
    + rewrite (rd_ok _ _ None) by lia. exact Hc.
    + replace (b - zlen (heap s)) with 0 in Hc by lia. discriminate.
Qed.

Lemma pm_tail s st v l : rel s st -> st v = Some (full l) ->
  (q <- copy_of v s ;; (let '(o, s2) := q in m_del (optr o) s2)) = Ret (Mem (heap s ++ [None]) (vars s)).
Proof.
  intros R E. rewrite (copy_ok s st v R), E. unfold full. cbn [contents]. rewrite ints_map. cbn [bind optr].
  unfold m_del. rewrite (m_blk_ok _ (map Some l)) by (cbn [heap]; apply rd_last). cbn [bind fst heap].
  rewrite wr_ok by (rewrite zlen_snoc; pose proof (zlen_nonneg (heap s)); lia).
  cbn [bind vars]. now rewrite zupd_app_last.
Qed.

Lemma exec_passign v x s st : rel s st -> v <> x -> matches (exec (PAssign v x) s) (vexec (PAssign v x) st).
Proof.
  intros R N. pose proof (assign_ok v x s st R N) as H. cbn [exec]. unfold pm_assign.
  change (vexec (PAssign v x) st) with (vexec (IAssign v x) st).
  destruct (vexec (IAssign v x) st) as [st'| | |] eqn:E; cbn [matches] in H |- *;
    [|rewrite H; reflexivity ..].
  destruct H as [s1 [E1 R1]]. rewrite E1. cbn [bind].
  cbn [vexec] in E. destruct (st v); [|discriminate]. destruct (st x) as [a|]; [|discriminate].
  destruct (contents a) as [l|]; [|discriminate]. apply Ret_inj in E.
  rewrite (pm_tail s1 st' v l R1); [eauto using rel_dead|].
  subst st'. unfold put. now rewrite Z.eqb_refl.
Qed.

Lemma zupd_self {A} (l : list A) i x : rd l i = Ret x -> zupd l i x = l.
Proof.
  intros H. destruct (rd_inv _ _ _ H) as [H1 H2]. apply (list_ext _ _ x).
  - apply zlen_zupd; auto.
  - intros j Hj. rewrite zlen_zupd in Hj by auto. rewrite znth_zupd by lia.
    destruct (Z.eqb_spec j i) as [->|]; auto.
Qed.

Lemma through_snoc x t e : through x (t ++ [e]) =
  match through x t, e with
  | Some r, Some a => match entry x (a - 1) with Some c => Some (r ++ [c]) | None => None end
  | _, _ => None
  end.
Proof.
  induction t as [|[y|] t IH]; cbn [through app].
  - destruct e as [a|]; [|reflexivity]. destruct (entry x (a - 1)); reflexivity.
  - rewrite IH. destruct (entry x (y - 1)); [|destruct (through x t); [destruct e|]; reflexivity].
    destruct (through x t); [|reflexivity]. destruct e as [a|]; [|reflexivity].
    destruct (entry x (a - 1)); reflexivity.
  - reflexivity.
Qed.

Lemma through_len x t r : through x t = Some r -> length r = length t.
Proof.
  revert r. induction t as [|[y|] t IH]; cbn [through]; intros r E; [|destruct (entry x (y - 1)); [|discriminate];
   destruct (through x t); [|discriminate]|discriminate]; inversion E; subst; cbn; auto.
Qed.

Lemma m_get_val s st x o a i : rel s st -> vars s x = Some o -> st x = Some a ->
  forall s', (forall b c, optr o = Some b -> rd (heap s) b = Ret c -> rd (heap s') b = Ret c) ->
  m_get (optr o) i s' = o2 (entry a i).
Proof.
  intros R Eo Ea s' Hs. destruct a as [n|l].
  - destruct (rel_gone _ _ _ _ R Ea) as [E _]. rewrite E in Eo. inversion Eo; subst. reflexivity.
  - destruct (rel_cells _ _ _ _ R Ea) as [b [E Hb]]. rewrite E in Eo. inversion Eo; subst.
    cbn [optr] in *. rewrite (m_get_ok b l) by auto. apply cell_entry.
Qed.

Lemma exec_times v x s st : rel s st -> v <> x -> matches (exec (TimesEq v x) s) (vexec (TimesEq v x) st).
Proof.
  intros R N. cbn [exec vexec]. unfold pm_timeseq. unfold getv at 1 2.
  destruct (st v) as [a|] eqn:Ea.
  2:{ rewrite (rel_none _ _ _ R Ea). reflexivity. }
  destruct (rel_some _ _ _ _ R Ea) as [o [Eo [Esz Hsz]]]. rewrite Eo. cbn [bind].
  destruct (st x) as [a'|] eqn:Ea'.
  2:{ rewrite (rel_none _ _ _ R Ea'). destruct a; reflexivity. }
  destruct (rel_some _ _ _ _ R Ea') as [o' [Eo' _]]. rewrite Eo'. cbn [bind]. rewrite Esz.
  destruct a as [n|t]; cbn [size] in *.
  { destruct (rel_gone _ _ _ _ R Ea) as [Ev Hn]. rewrite Ev in Eo. inversion Eo; subst o.
    destruct (Z.eqb_spec n 0) as [->|Nn].
    - cbn. eauto.
    - cbn [matches]. rewrite zfor_cons by lia. unfold getv. rewrite Eo', Ev. reflexivity. }
  change (Z.of_nat (length t)) with (zlen t) in *.
  destruct (rel_cells _ _ _ _ R Ea) as [b [Ev Hb]]. rewrite Ev in Eo. inversion Eo; subst o. clear Eo Esz.
  destruct (rd_inv _ _ _ Hb) as [Hbr _].
  match goal with |- matches (zfor _ _ ?bd _) _ => set (body := bd) end.
  assert (G : forall k, 0 <= k -> k <= zlen t ->
    zfor 0 k body s = match through a' (firstn (Z.to_nat k) t) with
      | Some r => Ret (Mem (zupd (heap s) b (Some (map Some r ++ skipn (Z.to_nat k) t))) (vars s))
      | None => UB end).
  { refine (natlike_ind _ _ _).
    - intros _. rewrite zfor_nil by lia. cbn [Z.to_nat firstn through map app skipn].
      rewrite (zupd_self _ b) by auto. destruct s; reflexivity.
    - intros k Hk IH Hle. unfold Z.succ in *. rewrite zfor_snoc by lia. rewrite IH by lia.
      assert (Hkn : (Z.to_nat k < length t)%nat) by (unfold zlen in Hle; lia).
      destruct (nth_error t (Z.to_nat k)) as [e|] eqn:Ek; [|apply nth_error_None in Ek; lia].
      assert (Hsk : skipn (Z.to_nat k) t = e :: skipn (Z.to_nat (k + 1)) t).
      { replace (Z.to_nat (k + 1)) with (S (Z.to_nat k)) by lia.
        clear - Ek. revert t Ek. induction (Z.to_nat k) as [|j IH]; intros [|y t] E; cbn in *; try discriminate.
        - congruence.
        - auto. }
      assert (Hfk : firstn (Z.to_nat (k + 1)) t = firstn (Z.to_nat k) t ++ [e]).
      { replace (Z.to_nat (k + 1)) with (S (Z.to_nat k)) by lia.
        clear - Ek. revert t Ek. induction (Z.to_nat k) as [|j IH]; intros [|y t] E; cbn in *; try discriminate.
        - congruence.
        - f_equal. auto. }
      rewrite Hfk, through_snoc.
      destruct (through a' (firstn (Z.to_nat k) t)) as [r|] eqn:Er; cbn [bind]; [|reflexivity].
      assert (Hr : zlen (map (@Some Z) r) = k).
      { rewrite zlen_map. unfold zlen. rewrite (through_len _ _ _ Er), firstn_length. lia. }
      unfold body. unfold getv. cbn [vars]. rewrite Eo', Ev. cbn [bind optr].
      set (c := map Some r ++ skipn (Z.to_nat k) t).
      assert (Hc : rd (heap (Mem (zupd (heap s) b (Some c)) (vars s))) b = Ret (Some c)).
      { cbn [heap]. rewrite rd_zupd by auto. now rewrite Z.eqb_refl. }
      assert (Hcl : zlen c = zlen t).
      { unfold c. rewrite zlen_app, Hr. unfold zlen. rewrite skipn_length. lia. }
      rewrite (m_get_ok b c) by exact Hc.
      assert (Hcell : cell c k = o2 e).
      { unfold cell. rewrite (rd_ok c k None) by lia. cbn [bind]. unfold c.
        rewrite znth_app by lia. destruct (Z.ltb_spec k (zlen (map (@Some Z) r))); [lia|].
        rewrite Hr, Z.sub_diag, Hsk. reflexivity. }
      rewrite Hcell. destruct e as [a|]; cbn [o2 bind]; [|reflexivity].
      rewrite (m_get_val s st x o' a' _ R Eo' Ea').
      2:{ intros b' c' Eb Hb'. cbn [heap]. rewrite rd_zupd by auto.
          destruct (Z.eqb_spec b' b) as [->|]; [|auto]. exfalso. apply N.
          apply (rel_inj _ _ R v x b); [exists (zlen t); auto|exists (osz o')]. rewrite Eo'. f_equal.
          destruct o'; cbn in *. congruence. }
      destruct (entry a' (a - 1)) as [q|]; cbn [o2 bind]; [|reflexivity].
      rewrite (m_put_ok b c) by (auto; lia). cbn [heap vars]. do 2 f_equal.
      assert (Hzz : forall y, zupd (zupd (heap s) b (Some c)) b y = zupd (heap s) b y).
      { intros y. apply (list_ext _ _ None).
        - rewrite !zlen_zupd; rewrite ?zlen_zupd; auto.
        - intros j Hj. rewrite !zlen_zupd in Hj by (rewrite ?zlen_zupd; lia).
          rewrite !znth_zupd by (rewrite ?zlen_zupd; lia). destruct (j =? b); reflexivity. }
      rewrite Hzz. do 2 f_equal. unfold c. rewrite Hsk. rewrite map_app. cbn [map]. rewrite <- app_assoc. cbn [app].
      generalize (skipn (Z.to_nat (k + 1)) t). intros u.
      rewrite <- Hr. unfold zupd, zlen. rewrite Nat2Z.id.
      rewrite firstn_app, firstn_all, Nat.sub_diag. cbn [firstn].
      rewrite app_nil_r. f_equal. f_equal.
      rewrite skipn_app, skipn_all2 by lia.
      replace (S (length (map Some r)) - length (map Some r))%nat with 1%nat by lia. reflexivity. }
  rewrite G by (pose proof (zlen_nonneg t); lia).
  assert (Ht : firstn (Z.to_nat (zlen t)) t = t) by (unfold zlen; rewrite Nat2Z.id; apply firstn_all).
  rewrite Ht. destruct (through a' t) as [r|] eqn:Er; [|reflexivity]. cbn [matches].
  eexists. split; [reflexivity|].
  rewrite skipn_all2 by (unfold zlen; lia). rewrite app_nil_r.
  apply (rel_inplace s st v t _ b); auto.
  rewrite zlen_map. unfold zlen. now rewrite (through_len _ _ _ Er).
Qed.

(* every statement other than v=v and v*=v *)
Lemma exec_ok o s st : rel s st -> self_op o = false -> matches (exec o s) (vexec o st).
Proof.
  intros R Hs. destruct o.
  - apply exec_default, R.
  - apply exec_raw, R.
  - apply exec_list, R.
  - apply exec_ident, R.
  - apply exec_one, R.
  - apply exec_zero, R.
  - apply exec_copy, R.
  - apply exec_move, R.
  - apply exec_passign; auto. apply Z.eqb_neq, Hs.
  - apply assign_ok; auto. apply Z.eqb_neq, Hs.
  - apply exec_moveassign, R.
  - apply exec_set, R.
  - apply exec_add, R.
  - apply exec_remove, R.
  - apply exec_times; auto. apply Z.eqb_neq, Hs.
  - apply exec_destroy, R.
Qed.

Lemma exec_all_ok h : forall s st, rel s st -> forallb (fun o => negb (self_op o)) h = true ->
  matches (exec_all h s) (vexec_all h st).
Proof.
  induction h as [|o h IH]; intros s st R Hh.
  - cbn. eauto.
  - cbn [forallb] in Hh. apply andb_true_iff in Hh. destruct Hh as [H1 H2].
    pose proof (exec_ok o s st R) as H. apply negb_true_iff in H1. specialize (H H1).
    unfold exec_all. cbn [foldM vexec_all].
    destruct (vexec o st) as [st'| | |]; cbn [matches] in H.
    + destruct H as [s' [-> R']]. cbn [bind]. apply IH; auto.
    + rewrite H. reflexivity.
    + rewrite H. reflexivity.
    + rewrite H. reflexivity.
Qed.

(* ---- observations ------------------------------------------------------------------------- *)

(* what the API shows of variable [v]: its size and its entries *)
Definition observes (s : mem) (v : Z) (x : option val) : Prop :=
  match x with
  | None => o_size v s = UB
  | Some a => o_size v s = Ret (size a) /\
      forall i, o_at v i s = match entry a i with Some e => Ret e | None => UB end
  end.

Lemma rel_observes s st v : rel s st -> observes s v (st v).
Proof.
  intros R. unfold observes, o_size, o_at, getv. destruct (st v) as [a|] eqn:Ea.
  - destruct (rel_some _ _ _ _ R Ea) as [o [Eo [Esz _]]]. rewrite Eo. cbn [bind]. rewrite Esz.
    split; [reflexivity|]. intros i. apply (m_get_val s st v o a i R Eo Ea). auto.
  - rewrite (rel_none _ _ _ R Ea). reflexivity.
Qed.

Lemma value_semantics h :
  forallb (fun o => negb (self_op o)) h = true ->
  match vexec_all h empty with
  | Ret st => exists s, exec_all h mem0 = Ret s /\ forall v, observes s v (st v)
  | Throw => exec_all h mem0 = Throw
  | Abort => False
  | UB => exec_all h mem0 = UB
  end.
Proof.
  intros Hh. pose proof (exec_all_ok h mem0 empty rel0 Hh) as H.
  destruct (vexec_all h empty) eqn:E; cbn [matches] in H; auto.
  - destruct H as [s [E1 R]]. exists s. split; [auto|]. intros v. now apply rel_observes.
  - clear H. revert E. generalize empty. induction h as [|o h IH]; intros st E; cbn in E; [discriminate|].
    cbn [forallb] in Hh. apply andb_true_iff in Hh.
    destruct (vexec o st) as [st'| | |] eqn:Eo; try discriminate; [eapply IH; [apply Hh|eauto]|].
    destruct o; cbn [vexec] in Eo; unfold create in Eo;
      repeat match type of Eo with
             | context [match ?x with _ => _ end] => destruct x; try discriminate
             end.
Qed.

(* ---- every history, self operations included ---------------------------------------------- *)

Lemma times_self v s st s' : rel s st -> exec (TimesEq v v) s = Ret s' ->
  exists st', rel s' st' /\ forall w, w <> v -> st' w = st w.
Proof.
  intros R E. cbn [exec] in E. unfold pm_timeseq in E. unfold getv at 1 2 in E.
  destruct (vars s v) as [o|] eqn:Eo; [|discriminate]. cbn [bind] in E.
  revert E. match goal with |- zfor _ _ ?bd _ = _ -> _ => set (body := bd) end.
  assert (Hstep : forall i s1 s2, body i s1 = Ret s2 -> (exists st1, rel s1 st1 /\ forall w, w <> v -> st1 w = st w) ->
     exists st2, rel s2 st2 /\ forall w, w <> v -> st2 w = st w).
  { intros i s1 s2 B [st1 [R1 F1]]. unfold body, getv in B.
    destruct (vars s1 v) as [o1|] eqn:Eo1; [|discriminate]. cbn [bind] in B.
    destruct (st1 v) as [[n|t]|] eqn:Ea1.
    - destruct (rel_gone _ _ _ _ R1 Ea1) as [X _]. rewrite X in Eo1. inversion Eo1; subst o1. discriminate.
    - destruct (rel_cells _ _ _ _ R1 Ea1) as [b [X Hb]]. rewrite X in Eo1. inversion Eo1; subst o1. cbn [optr] in B.
      destruct (m_get (Some b) i s1) as [a| | |]; try discriminate. cbn [bind] in B.
      destruct (m_get (Some b) (a - 1) s1) as [c| | |]; try discriminate. cbn [bind] in B.
      destruct (Z_le_dec 0 i); [destruct (Z_lt_dec i (zlen t))|].
      + rewrite (m_put_ok b t) in B by auto. apply Ret_inj in B. subst s2.
        exists (put st1 v (Some (Cells (zupd t i (Some c))))). split.
        * apply (rel_inplace s1 st1 v t _ b); auto. apply zlen_zupd; auto.
        * intros w Hw. unfold put. destruct (Z.eqb_spec w v); [contradiction|auto].
      + rewrite (m_put_out b t) in B by (auto; lia). discriminate.
      + rewrite (m_put_out b t) in B by (auto; lia). discriminate.
    - rewrite (rel_none _ _ _ R1 Ea1) in Eo1. discriminate. }
  unfold zfor. generalize (zrange 0 (osz o)) as l. intros l.
  assert (G : forall l s1, (exists st1, rel s1 st1 /\ forall w, w <> v -> st1 w = st w) ->
     foldM body l s1 = Ret s' -> exists st', rel s' st' /\ forall w, w <> v -> st' w = st w).
  { clear l. induction l as [|i l IH]; cbn [foldM]; intros s1 H1 E.
    - apply Ret_inj in E. now subst.
    - destruct (body i s1) as [s2| | |] eqn:B; try discriminate. cbn [bind] in E.
      eapply IH; [|exact E]. eapply Hstep; eauto. }
  intros E. eapply G; [|exact E]. exists st. auto.
Qed.

Lemma vexec_frame o st st' w : vexec o st = Ret st' -> ~ In w (names o) -> st' w = st w.
Proof.
  intros E Hw. destruct o; cbn [vexec names In] in *; unfold create in E;
      repeat match type of E with
             | context [match ?x with _ => _ end] => destruct x eqn:?; try discriminate
             end; apply Ret_inj in E; subst st'; unfold put;
      repeat match goal with
             | |- context [?a =? ?b] => destruct (Z.eqb_spec a b); subst
             end; tauto.
Qed.

Lemma exec_any o s st s' : rel s st -> exec o s = Ret s' ->
  exists st', rel s' st' /\ forall w, ~ In w (names o) -> st' w = st w.
Proof.
  intros R E. destruct (self_op o) eqn:Hs.
  - destruct o; try discriminate; cbn [self_op] in Hs; apply Z.eqb_eq in Hs; subst x; cbn [names In].
    + cbn [exec] in E. unfold pm_assign in E. pose proof (assign_self v s st R) as H.
      destruct (st v) as [a|] eqn:Ea; [|cbn [matches] in H; rewrite H in E; discriminate].
      destruct (size a =? 0); [|cbn [matches] in H; rewrite H in E; discriminate].
      cbn [matches] in H. destruct H as [s1 [E1 R1]]. rewrite E1 in E. cbn [bind] in E.
      rewrite (pm_tail s1 _ v [] R1) in E by (unfold put; now rewrite Z.eqb_refl).
      apply Ret_inj in E. subst s'. eexists. split; [apply rel_dead, R1|].
      intros w Hw. unfold put. destruct (Z.eqb_spec w v); [subst; tauto|auto].
    + cbn [exec] in E. unfold ip_assign in E. pose proof (assign_self v s st R) as H.
      destruct (st v) as [a|] eqn:Ea; [|cbn [matches] in H; rewrite H in E; discriminate].
      destruct (size a =? 0); [|cbn [matches] in H; rewrite H in E; discriminate].
      cbn [matches] in H. destruct H as [s1 [E1 R1]]. rewrite E1 in E. apply Ret_inj in E. subst s'.
      eexists. split; [apply R1|].
      intros w Hw. unfold put. destruct (Z.eqb_spec w v); [subst; tauto|auto].
    + destruct (times_self v s st s' R E) as [st' [R' F]]. exists st'. split; [auto|].
      intros w Hw. apply F. intros ->. tauto.
  - pose proof (exec_ok o s st R Hs) as H.
    destruct (vexec o st) as [st'| | |] eqn:Ev; cbn [matches] in H; [|congruence ..].
    destruct H as [s1 [E1 R1]]. rewrite E in E1. apply Ret_inj in E1. subst s1.
    exists st'. split; [auto|]. intros w. now apply vexec_frame with (o := o).
Qed.

Lemma exec_all_any h : forall s st s', rel s st -> exec_all h s = Ret s' -> exists st', rel s' st'.
Proof.
  induction h as [|o h IH]; intros s st s' R E.
  - apply Ret_inj in E. subst. eauto.
  - unfold exec_all in E. cbn [foldM] in E. destruct (exec o s) as [s1| | |] eqn:E1; try discriminate.
    cbn [bind] in E. destruct (exec_any o s st s1 R E1) as [st1 [R1 _]]. eapply IH; eauto.
Qed.

Lemma reach_rel h s : exec_all h mem0 = Ret s -> exists st, rel s st.
Proof. intros E. eapply exec_all_any; [apply rel0|exact E]. Qed.

(* no statement changes a variable it does not name *)
Lemma frame h s o s' v : exec_all h mem0 = Ret s -> exec o s = Ret s' -> ~ In v (names o) ->
  o_size v s' = o_size v s /\ forall i, o_at v i s' = o_at v i s.
Proof.
  intros E Eo Hv. destruct (reach_rel h s E) as [st R].
  destruct (exec_any o s st s' R Eo) as [st' [R' F]]. specialize (F v Hv).
  pose proof (rel_observes s st v R) as O. pose proof (rel_observes s' st' v R') as O'.
  rewrite F in O'. unfold observes in *. destruct (st v) as [a|].
  - destruct O as [O1 O2], O' as [O1' O2']. split; [congruence|]. intros i. now rewrite O2, O2'.
  - split; [congruence|]. intros i. unfold o_at, o_size, getv in *.
    destruct (vars s v); [discriminate|]. destruct (vars s' v); [discriminate|]. reflexivity.
Qed.

(* memory: the blocks in use are exactly the blocks of live objects, each owned once *)
Lemma ownership h s : exec_all h mem0 = Ret s ->
  (forall v o b, vars s v = Some o -> optr o = Some b ->
     exists c, rd (heap s) b = Ret (Some c) /\ zlen c = osz o) /\
  (forall v w o o' b, vars s v = Some o -> vars s w = Some o' -> optr o = Some b -> optr o' = Some b -> v = w) /\
  (forall b c, rd (heap s) b = Ret (Some c) -> exists v o, vars s v = Some o /\ optr o = Some b).
Proof.
  intros E. destruct (reach_rel h s E) as [st R]. repeat split.
  - intros v [n p] b Ev Eb. cbn in Eb. subst p. destruct (st v) as [[m|l]|] eqn:Ea.
    + destruct (rel_gone _ _ _ _ R Ea) as [X _]. congruence.
    + destruct (rel_cells _ _ _ _ R Ea) as [b' [X Hb]]. rewrite X in Ev. inversion Ev; subst. eauto.
    + rewrite (rel_none _ _ _ R Ea) in Ev. discriminate.
  - intros v w [n p] [m q] b E1 E2 P Q. cbn in P, Q. subst.
    eapply (rel_inj _ _ R); [exists n|exists m]; eauto.
  - intros b c Hc. destruct (rel_owned _ _ R b c Hc) as [v [n Ev]]. eexists v, _. split; [eauto|reflexivity].
Qed.

Lemma no_leak h s : exec_all h mem0 = Ret s -> (forall v, o_size v s = UB) ->
  forall b c, rd (heap s) b <> Ret (Some c).
Proof.
  intros E D b c Hc. destruct (ownership h s E) as [_ [_ O]]. destruct (O b c Hc) as [v [o [Ev _]]].
  specialize (D v). unfold o_size, getv in D. rewrite Ev in D. discriminate.
Qed.

(* every live object can be destroyed *)
Lemma destroyable h s v n : exec_all h mem0 = Ret s -> o_size v s = Ret n ->
  exists s', exec (Destroy v) s = Ret s' /\ o_size v s' = UB.
Proof.
  intros E Hn. destruct (reach_rel h s E) as [st R]. pose proof (exec_destroy v s st R) as H.
  cbn [vexec] in H. destruct (st v) as [a|] eqn:Ea.
  - cbn [matches] in H. destruct H as [s' [E' R']]. exists s'. split; [auto|].
    pose proof (rel_observes s' _ v R') as O. unfold put in O. rewrite Z.eqb_refl in O. exact O.
  - unfold o_size, getv in Hn. rewrite (rel_none _ _ _ R Ea) in Hn. discriminate.
Qed.

(* x=x on an object with entries *)
Lemma self_assign_ub h s v n : exec_all h mem0 = Ret s -> o_size v s = Ret n -> 0 < n ->
  exec (IAssign v v) s = UB /\ exec (PAssign v v) s = UB.
Proof.
  intros E Hn Hpos. destruct (reach_rel h s E) as [st R]. pose proof (assign_self v s st R) as H.
  assert (HU : assign_body v v s = UB).
  { destruct (st v) as [a|] eqn:Ea; [|exact H].
    destruct (rel_some _ _ _ _ R Ea) as [o [Eo [Esz _]]]. unfold o_size, getv in Hn. rewrite Eo in Hn.
    cbn [bind] in Hn. apply Ret_inj in Hn. rewrite <- Esz in H.
    destruct (Z.eqb_spec (osz o) 0); [lia|]. exact H. }
  cbn [exec]. unfold ip_assign, pm_assign. rewrite HU. split; reflexivity.
Qed.

Lemma observes_full s st v t : rel s st -> o_size v s = Ret (zlen t) ->
  (forall i, 0 <= i < zlen t -> o_at v i s = Ret (znth t i 0)) ->
  st v = Some (full t) \/ (t = [] /\ st v = Some (Gone 0)).
Proof.
  intros R Hs Ht. pose proof (rel_observes s st v R) as O. unfold observes in O.
  destruct (st v) as [a|]; [|congruence]. destruct O as [O1 O2]. rewrite Hs in O1. apply Ret_inj in O1.
  destruct a as [n|l]; cbn [size] in O1.
  - right. destruct t as [|e t]; [subst; auto|]. specialize (Ht 0). rewrite O2 in Ht. cbn [entry] in Ht.
    rewrite zlen_cons in Ht. pose proof (zlen_nonneg t). discriminate Ht. lia.
  - left. unfold full. do 2 f_equal. change (zlen t = zlen l) in O1. apply (list_ext _ _ None).
    + rewrite zlen_map. auto.
    + intros i Hi. specialize (Ht i). rewrite O2 in Ht. specialize (Ht ltac:(lia)).
      rewrite (znth_map Some t i 0 None) by lia.
      unfold entry in Ht. destruct (Z.leb_spec 0 i); [|lia].
      unfold znth at 1. destruct (nth_error l (Z.to_nat i)) as [[e|]|] eqn:E; try discriminate.
      rewrite (nth_error_nth _ _ _ E). apply Ret_inj in Ht. congruence.
Qed.

Lemma through_ok y t : (forall a, In a t -> 1 <= a <= zlen y) ->
  through (full y) (map Some t) = Some (map (fun a => znth y (a - 1) 0) t).
Proof.
  induction t as [|a t IH]; intros H; cbn [through map]; [reflexivity|].
  rewrite IH by (intros; apply H; now right).
  assert (E : entry (full y) (a - 1) = Some (znth y (a - 1) 0)).
  { specialize (H a (or_introl eq_refl)). unfold entry, full. destruct (Z.leb_spec 0 (a - 1)); [|lia].
    rewrite nth_error_map. unfold znth, zlen in *.
    rewrite (nth_error_nth' y 0) by lia. reflexivity. }
  now rewrite E.
Qed.

Lemma times_assign h s v x t y : exec_all h mem0 = Ret s -> v <> x ->
  o_size v s = Ret (zlen t) -> (forall i, 0 <= i < zlen t -> o_at v i s = Ret (znth t i 0)) ->
  o_size x s = Ret (zlen y) -> (forall i, 0 <= i < zlen y -> o_at x i s = Ret (znth y i 0)) ->
  (forall a, In a t -> 1 <= a <= zlen y) ->
  exists s', exec (TimesEq v x) s = Ret s' /\ o_size v s' = Ret (zlen t) /\
    forall i, 0 <= i < zlen t -> o_at v i s' = Ret (znth y (znth t i 0 - 1) 0).
Proof.
  intros E N Hv Ht Hx Hy Hr. destruct (reach_rel h s E) as [st R].
  pose proof (exec_times v x s st R N) as H. cbn [vexec] in H.
  destruct (observes_full s st v t R Hv Ht) as [Sv|[-> Sv]]; rewrite Sv in H.
  - destruct (observes_full s st x y R Hx Hy) as [Sx|[-> Sx]]; rewrite Sx in H; unfold full in H at 1.
    + rewrite (through_ok y t Hr) in H. cbn [matches] in H. destruct H as [s' [E' R']]. exists s'. split; [auto|].
      pose proof (rel_observes s' _ v R') as O. unfold put in O. rewrite Z.eqb_refl in O. cbn [observes] in O.
      destruct O as [O1 O2]. split.
      * rewrite O1. unfold full, size. rewrite !map_length. reflexivity.
      * intros i Hi. rewrite O2. unfold entry, full. destruct (Z.leb_spec 0 i); [|lia].
        rewrite !nth_error_map. unfold zlen in Hi. rewrite (nth_error_nth' t 0) by lia. reflexivity.
    + destruct t as [|a t]; [|specialize (Hr a (or_introl eq_refl)); change (zlen []) with 0 in Hr; lia].
      cbn [map through matches] in H. destruct H as [s' [E' R']]. exists s'. split; [auto|].
      pose proof (rel_observes s' _ v R') as O. unfold put in O. rewrite Z.eqb_refl in O. cbn [observes] in O.
      split; [apply O|]. intros i Hi. change (zlen []) with 0 in Hi. lia.
  - destruct (rel_some s st x) with (a := match st x with Some a => a | None => Gone 0 end) as [_ [_ _]]; auto.
    { destruct (observes_full s st x y R Hx Hy) as [Sx|[_ Sx]]; rewrite Sx; reflexivity. }
    assert (Sx : exists a, st x = Some a) by (destruct (observes_full s st x y R Hx Hy) as [Sx|[_ Sx]]; eauto).
    destruct Sx as [a Sx]. rewrite Sx in H. cbn [Z.eqb matches] in H. destruct H as [s' [E' R']]. exists s'. split; [auto|].
    pose proof (rel_observes s' _ v R') as O. rewrite Sv in O. cbn [observes] in O.
    split; [apply O|]. intros i Hi. change (zlen []) with 0 in Hi. lia.
Qed.
