(* Statement by statement: the heap model does what value semantics says. *)
From Coq Require Import ZArith List Bool Lia.
From Verif Require Import Model_Base Spec_Mem Model_Mem Proof_Base Proof_Mem.
Import ListNotations.
Open Scope Z_scope.

Definition matches (m : outcome mem) (a : outcome store) : Prop :=
  match a with
  | Ret st => exists s, m = Ret s /\ rel s st
  | Throw => m = Throw
  | Abort => m = Abort
  | UB => m = UB
  end.

Lemma rel_cells s st v l : rel s st -> st v = Some (Cells l) ->
  exists b, vars s v = Some (Obj (zlen l) (Some b)) /\ rd (heap s) b = Ret (Some l).
Proof.
  intros R E. pose proof (rel_holds _ _ R v) as H. rewrite E in H. unfold holds in H.
  destruct (vars s v) as [o|]; [|destruct H]. destruct H as [b [-> Hb]]. eauto.
Qed.
Lemma rel_gone s st v n : rel s st -> st v = Some (Gone n) -> vars s v = Some (Obj n None) /\ 0 <= n.
Proof.
  intros R E. pose proof (rel_holds _ _ R v) as H. rewrite E in H. unfold holds in H.
  destruct (vars s v) as [o|]; [|destruct H]. destruct H as [-> Hb]. eauto.
Qed.
Lemma rel_none s st v : rel s st -> st v = None -> vars s v = None.
Proof.
  intros R E. pose proof (rel_holds _ _ R v) as H. rewrite E in H. unfold holds in H.
  destruct (vars s v) as [o|]; [destruct H|reflexivity].
Qed.
Lemma rel_some s st v a : rel s st -> st v = Some a -> exists o, vars s v = Some o /\ osz o = size a /\ 0 <= size a.
Proof.
  intros R E. destruct a as [n|l].
  - destruct (rel_gone _ _ _ _ R E) as [-> H]. eexists. split; [reflexivity|]. cbn [osz size]. auto.
  - destruct (rel_cells _ _ _ _ R E) as [b [-> H]]. eexists. split; [reflexivity|]. cbn [osz size]. unfold zlen. split; [reflexivity|lia].
Qed.

Lemma m_blk_ok b l s : rd (heap s) b = Ret (Some l) -> m_blk (Some b) s = Ret (b, l).
Proof. intros E. unfold m_blk. rewrite E. reflexivity. Qed.
Lemma m_get_ok b l s i : rd (heap s) b = Ret (Some l) -> m_get (Some b) i s = cell l i.
Proof. intros E. unfold m_get. rewrite (m_blk_ok b l s E). reflexivity. Qed.
Lemma m_put_ok b l s i x : rd (heap s) b = Ret (Some l) -> 0 <= i < zlen l ->
  m_put (Some b) i x s = Ret (Mem (zupd (heap s) b (Some (zupd l i (Some x)))) (vars s)).
Proof.
  intros E Hi. unfold m_put. rewrite (m_blk_ok b l s E). cbn [bind fst snd].
  rewrite wr_ok by auto. cbn [bind]. destruct (rd_inv _ _ _ E). rewrite wr_ok by auto. reflexivity.
Qed.
Lemma m_put_out b l s i x : rd (heap s) b = Ret (Some l) -> ~ 0 <= i < zlen l -> m_put (Some b) i x s = UB.
Proof.
  intros E Hi. unfold m_put. rewrite (m_blk_ok b l s E). cbn [bind fst snd].
  rewrite wr_out by auto. reflexivity.
Qed.
Lemma m_del_ok s st v o : rel s st -> vars s v = Some o ->
  forall V, m_del (optr o) (Mem (heap s) V) = Ret (Mem (hfree (heap s) (optr o)) V).
Proof.
  intros R E V. destruct o as [n [b|]]; cbn [optr hfree]; [|reflexivity].
  destruct (owner_lt s st v b R) as [c Hc]; [exists n; auto|].
  unfold m_del. rewrite (m_blk_ok b c) by auto. cbn [bind fst heap].
  destruct (rd_inv _ _ _ Hc). rewrite wr_ok by auto. reflexivity.
Qed.

Lemma newv_create s st v c :
  rel s st ->
  matches (newv v (Obj (zlen c) (Some (zlen (heap s)))) (Mem (heap s ++ [Some c]) (vars s)))
          (create st v (Cells c)).
Proof.
  intros R. unfold newv, create. cbn [vars]. destruct (st v) as [a|] eqn:Ea.
  - destruct (rel_some _ _ _ _ R Ea) as [o [-> _]]. reflexivity.
  - rewrite (rel_none _ _ _ R Ea). cbn [matches]. eexists. split; [reflexivity|].
    unfold setv. cbn [heap vars].
    pose proof (rel_newblock s st v c (fupd (vars s) v (Some (Obj (zlen c) (Some (zlen (heap s))))))
                  (put st v (Some (Cells c))) R) as H.
    rewrite (rel_none _ _ _ R Ea) in H. apply H; reflexivity.
Qed.

Lemma m_new_ok n s : 0 <= n ->
  m_new n s = Ret (zlen (heap s), Mem (heap s ++ [Some (repeat None (Z.to_nat n))]) (vars s)).
Proof. intros H. unfold m_new. rewrite alloc_ok by auto. reflexivity. Qed.
Lemma m_new_neg n s : n < 0 -> m_new n s = Throw.
Proof. intros H. unfold m_new, alloc. destruct (Z.ltb_spec n 0); [reflexivity|lia]. Qed.

Lemma app_repeat0 {A} (l : list A) x n m : (n <= m)%nat -> l ++ repeat x (n - m) = l.
Proof. intros H. replace (n - m)%nat with 0%nat by lia. cbn. apply app_nil_r. Qed.

(* fill a fresh block from pure values *)
Lemma fill_pure s n (f : Z -> Z) (body : Z -> mem -> outcome mem) :
  0 <= n ->
  (forall i s', 0 <= i < n -> body i s' = m_put (Some (zlen (heap s))) i (f i) s') ->
  zfor 0 n body (Mem (heap s ++ [Some (repeat None (Z.to_nat n))]) (vars s)) =
  Ret (Mem (heap s ++ [Some (map Some (map f (zrange 0 n)))]) (vars s)).
Proof.
  intros Hn Hb. rewrite (fill_loop _ _ _ _ _ (fun i => Ret (f i))); [|lia|lia|].
  - rewrite tabM_ret. cbn [bind]. rewrite app_repeat0 by lia. reflexivity.
  - intros i c Hi. rewrite Hb by auto. reflexivity.
Qed.

Lemma zlen_map_zrange {A} (f : Z -> A) n : 0 <= n -> zlen (map f (zrange 0 n)) = n.
Proof. intros H. rewrite zlen_map, zlen_zrange. lia. Qed.

Lemma exec_list v l s st : rel s st -> matches (exec (NewList v l) s) (vexec (NewList v l) st).
Proof.
  intros R. cbn [exec vexec]. unfold ctor_list. rewrite m_new_ok by apply zlen_nonneg. cbn [bind].
  unfold fill_from. rewrite (fill_pure s (zlen l) (fun i => znth l i 0)).
  - cbn [bind]. rewrite (map_znth_zrange l 0). 
    replace (zlen l) with (zlen (map (@Some Z) l)) by apply zlen_map. apply newv_create, R.
  - apply zlen_nonneg.
  - intros i s' Hi. rewrite (rd_ok l i 0) by auto. reflexivity.
Qed.

Lemma exec_raw v n s st : rel s st -> matches (exec (NewRaw v n) s) (vexec (NewRaw v n) st).
Proof.
  intros R. cbn [exec vexec]. unfold ctor_raw. destruct (Z.ltb_spec n 0).
  - rewrite m_new_neg by auto. reflexivity.
  - rewrite m_new_ok by auto. cbn [bind].
    replace n with (zlen (repeat (@None Z) (Z.to_nat n))) at 1 by (rewrite zlen_repeat; lia).
    apply newv_create, R.
Qed.

Lemma seq_zrange n : map Z.of_nat (seq 1 n) = map (fun i => i + 1) (zrange 0 (Z.of_nat n)).
Proof.
  unfold zrange. rewrite Z.sub_0_r, Nat2Z.id, map_map, <- seq_shift, map_map.
  apply map_ext. intros a. lia.
Qed.

Lemma exec_ident v n s st : rel s st -> matches (exec (NewIdentity v n) s) (vexec (NewIdentity v n) st).
Proof.
  intros R. cbn [exec vexec]. unfold pm_ctor_identity. destruct (Z.ltb_spec n 0).
  - rewrite m_new_neg by auto. reflexivity.
  - rewrite m_new_ok by auto. cbn [bind]. rewrite (fill_pure s n (fun i => i + 1)) by auto.
    cbn [bind]. rewrite seq_zrange, Z2Nat.id by auto. unfold full.
    replace n with (zlen (map (@Some Z) (map (fun i => i + 1) (zrange 0 n)))) at 1
      by (rewrite zlen_map, zlen_map_zrange; auto).
    apply newv_create, R.
Qed.

Lemma exec_zero v n s st : rel s st -> matches (exec (NewZero v n) s) (vexec (NewZero v n) st).
Proof.
  intros R. cbn [exec vexec]. unfold ip_ctor_zero. destruct (Z.ltb_spec n 0).
  - rewrite m_new_neg by auto. reflexivity.
  - rewrite m_new_ok by auto. cbn [bind]. rewrite (fill_pure s n (fun i => 0)) by auto.
    cbn [bind]. replace (repeat 0 (Z.to_nat n)) with (map (fun _ => 0) (zrange 0 n)).
    + unfold full. replace n with (zlen (map (@Some Z) (map (fun i => 0) (zrange 0 n)))) at 1
      by (rewrite zlen_map, zlen_map_zrange; auto).
      apply newv_create, R.
    + unfold zrange. rewrite Z.sub_0_r, map_map. generalize (seq 0 (Z.to_nat n)) (seq_length (Z.to_nat n) 0).
      intros l <-. induction l as [|x l IH]; cbn; [reflexivity|now rewrite IH].
Qed.

Lemma exec_one v n s st : rel s st -> matches (exec (NewOneRow v n) s) (vexec (NewOneRow v n) st).
Proof.
  intros R. cbn [exec vexec]. unfold ip_ctor_identity. rewrite m_new_ok by lia. cbn [bind].
  rewrite (m_put_ok _ (repeat None (Z.to_nat 1))); [|cbn [heap]; apply rd_last|rewrite zlen_repeat; lia].
  cbn [bind heap vars]. rewrite zupd_app_last.
  replace (zupd (repeat None (Z.to_nat 1)) 0 (Some n)) with [Some n] by reflexivity.
  change 1 with (zlen [Some n]). apply newv_create, R.
Qed.

Lemma exec_default v s st : rel s st -> matches (exec (NewDefault v) s) (vexec (NewDefault v) st).
Proof.
  intros R. cbn [exec vexec]. unfold ip_ctor_default, newv, create. destruct (st v) as [a|] eqn:Ea.
  - destruct (rel_some _ _ _ _ R Ea) as [o [-> _]]. reflexivity.
  - rewrite (rel_none _ _ _ R Ea). cbn [matches]. eexists. split; [reflexivity|].
    destruct R as [R1 R2 R3]. unfold setv, put, fupd. split; cbn [heap vars].
    + intros w. destruct (Z.eqb_spec w v); [cbn; split; [reflexivity|lia]|apply R1].
    + intros w u b [n O1] [m O2]. destruct (w =? v); [discriminate|]. destruct (u =? v); [discriminate|].
      eapply R2; [exists n|exists m]; eauto.
    + intros b c Hc. destruct (R3 b c Hc) as [w [n Ow]]. exists w, n.
      destruct (Z.eqb_spec w v) as [->|]; [|auto]. rewrite (rel_none s st v) in Ow; [discriminate| |auto].
      split; auto.
Qed.

Lemma tabM_const_ub n : 0 < n -> tabM n (fun _ => UB) = UB.
Proof. intros H. unfold tabM. rewrite zfor_cons by lia. reflexivity. Qed.

Lemma copy_ok s st x : rel s st ->
  copy_of x s =
  match st x with
  | Some a =>
      match contents a with
      | Some l => Ret (Obj (zlen l) (Some (zlen (heap s))), Mem (heap s ++ [Some (map Some l)]) (vars s))
      | None => UB
      end
  | None => UB
  end.
Proof.
  intros R. unfold copy_of, getv. destruct (st x) as [a|] eqn:Ea.
  2:{ rewrite (rel_none _ _ _ R Ea). reflexivity. }
  destruct a as [n|c].
  - destruct (rel_gone _ _ _ _ R Ea) as [Ev Hn]. rewrite Ev. cbn [bind osz contents].
    rewrite m_new_ok by auto. cbn [bind].
    rewrite (fill_loop _ _ _ _ _ (fun _ => UB)); [|lia|lia|].
    + destruct (Z.eqb_spec n 0) as [->|].
      * reflexivity.
      * rewrite tabM_const_ub by lia. reflexivity.
    + intros i c' Hi. cbn [vars]. rewrite Ev. cbn [bind optr]. reflexivity.
  - destruct (rel_cells _ _ _ _ R Ea) as [b [Ev Hb]]. rewrite Ev. cbn [bind osz contents].
    rewrite m_new_ok by apply zlen_nonneg. cbn [bind].
    rewrite (fill_loop _ _ _ _ _ (cell c)); [|apply zlen_nonneg|lia|].
    + rewrite tabM_cell. destruct (ints c) as [l|] eqn:El; cbn [o2 bind]; [|reflexivity].
      rewrite app_repeat0 by lia. rewrite (ints_len _ _ El). reflexivity.
    + intros i c' Hi. cbn [vars]. rewrite Ev. cbn [bind optr].
      rewrite (m_get_ok b c) by (cbn [heap]; apply rd_app_l; auto). reflexivity.
Qed.

Lemma exec_copy v x s st : rel s st -> matches (exec (Copy v x) s) (vexec (Copy v x) st).
Proof.
  intros R. cbn [exec vexec]. unfold ctor_copy. rewrite (copy_ok s st x R).
  destruct (st x) as [a|]; [|reflexivity]. destruct (contents a) as [l|]; [|reflexivity].
  cbn [bind]. rewrite <- (zlen_map (@Some Z) l). apply newv_create, R.
Qed.

Lemma exec_move v x s st : rel s st -> matches (exec (Move v x) s) (vexec (Move v x) st).
Proof.
  intros R. cbn [exec vexec]. unfold ctor_move, getv. destruct (st x) as [a|] eqn:Ea.
  2:{ rewrite (rel_none _ _ _ R Ea). reflexivity. }
  destruct (rel_some _ _ _ _ R Ea) as [o [Eo _]]. rewrite Eo. cbn [bind].
  unfold newv, create, setv, put, fupd. cbn [vars heap].
  destruct (Z.eqb_spec v x) as [->|N]; [reflexivity|].
  destruct (st v) as [a'|] eqn:Ea'.
  - destruct (rel_some _ _ _ _ R Ea') as [o' [-> _]]. reflexivity.
  - pose proof (rel_none _ _ _ R Ea') as En. rewrite En. cbn [matches]. eexists. split; [reflexivity|].
    epose proof (rel_take s st v x o a _ _ R N Eo Ea) as H. rewrite En in H. cbn [oldp hfree] in H.
    apply H; intros w; destruct (Z.eqb_spec w v); destruct (Z.eqb_spec w x); congruence.
Qed.

Lemma exec_moveassign v x s st : rel s st -> matches (exec (MoveAssign v x) s) (vexec (MoveAssign v x) st).
Proof.
  intros R. cbn [exec vexec]. unfold assign_move, getv.
  destruct (Z.eqb_spec v x) as [->|N].
  - destruct (st x) as [a|] eqn:Ea.
    + destruct (rel_some _ _ _ _ R Ea) as [o [Eo _]]. rewrite Eo. cbn. eauto.
    + rewrite (rel_none _ _ _ R Ea). reflexivity.
  - destruct (st x) as [a|] eqn:Ea.
    2:{ rewrite (rel_none _ _ _ R Ea). destruct (st v); reflexivity. }
    destruct (rel_some _ _ _ _ R Ea) as [o [Eo _]]. rewrite Eo. cbn [bind].
    destruct (st v) as [a'|] eqn:Ea'.
    2:{ rewrite (rel_none _ _ _ R Ea'). reflexivity. }
    destruct (rel_some _ _ _ _ R Ea') as [o' [Eo' _]]. rewrite Eo'. cbn [bind].
    unfold setv. cbn [heap vars]. rewrite (m_del_ok s st v o' R Eo'). cbn [bind matches heap vars].
    eexists. split; [reflexivity|].
    pose proof (fun V st' => rel_take s st v x o a V st' R N Eo Ea) as H. rewrite Eo' in H. cbn [oldp] in H.
    apply H; unfold fupd, put; intros w; destruct (Z.eqb_spec w v); destruct (Z.eqb_spec w x); congruence.
Qed.

(* the shared body of the copy assignments, for two different objects *)
Lemma assign_ok v x s st : rel s st -> v <> x ->
  matches (assign_body v x s) (vexec (IAssign v x) st).
Proof.
  intros R N. cbn [vexec]. unfold assign_body. unfold getv at 1. destruct (st x) as [a|] eqn:Ea.
  2:{ rewrite (rel_none _ _ _ R Ea). destruct (st v); reflexivity. }
  destruct (rel_some _ _ _ _ R Ea) as [o [Eo [Esz Hsz]]]. rewrite Eo. cbn [bind]. unfold getv at 1.
  destruct (st v) as [a'|] eqn:Ea'.
  2:{ rewrite (rel_none _ _ _ R Ea'). reflexivity. }
  destruct (rel_some _ _ _ _ R Ea') as [o' [Eo' _]]. rewrite Eo'. cbn [bind].
  unfold setv at 1. rewrite (m_del_ok s st v o' R Eo'). cbn [bind].
  rewrite m_new_ok by lia. cbn [bind heap vars]. unfold setv. cbn [heap vars].
  set (V := fupd (fupd (vars s) v _) v _).
  assert (Vv : V v = Some (Obj (osz o) (Some (zlen (hfree (heap s) (optr o')))))).
  { unfold V, fupd. now rewrite Z.eqb_refl. }
  assert (Vx : V x = Some o).
  { unfold V, fupd. destruct (Z.eqb_spec x v); [congruence|auto]. }
  assert (Vo : forall w, V w = if w =? v then Some (Obj (osz o) (Some (zlen (hfree (heap s) (optr o'))))) else vars s w).
  { intros w. unfold V, fupd. destruct (w =? v); reflexivity. }
  clearbody V. rewrite Esz in *.
  assert (Hl : zlen (hfree (heap s) (optr o')) = zlen (heap s)).
  { apply hfree_zlen. intros b E. apply (oldp_ok s st v b R). rewrite Eo'. exact E. }
  destruct a as [n|c]; cbn [size contents] in *.
  - destruct (rel_gone _ _ _ _ R Ea) as [Ev Hn].
    rewrite (fill_loop _ _ _ _ _ (fun _ => UB)); [|lia|lia|].
    + destruct (Z.eqb_spec n 0) as [->|].
      * cbn. eexists. split; [reflexivity|].
        pose proof (rel_newblock s st v [] V (put st v (Some (full []))) R) as H.
        rewrite Eo' in H. cbn [oldp] in H. apply H; [|reflexivity]. intros w. rewrite Vo, Hl. reflexivity.
      * rewrite tabM_const_ub by lia. reflexivity.
    + intros i c' Hi. unfold getv. cbn [vars]. rewrite Vx, Vv. cbn [bind optr].
      rewrite Ev in Eo. inversion Eo; subst o. reflexivity.
  - change (Z.of_nat (length c)) with (zlen c) in *.
    destruct (rel_cells _ _ _ _ R Ea) as [b [Ev Hb]].
    assert (Hb' : rd (hfree (heap s) (optr o')) b = Ret (Some c)).
    { pose proof (rd_hfree_other s st v x b (Some c) R N) as H. rewrite Eo' in H. apply H; [|auto].
      exists (zlen c). auto. }
    rewrite (fill_loop _ _ _ _ _ (cell c)); [|apply zlen_nonneg|lia|].
    + rewrite tabM_cell. destruct (ints c) as [l|] eqn:El; cbn [o2 bind]; [|reflexivity].
      rewrite app_repeat0 by lia. cbn [matches]. eexists. split; [reflexivity|].
      pose proof (rel_newblock s st v (map Some l) V (put st v (Some (full l))) R) as H.
      rewrite Eo' in H. cbn [oldp] in H. apply H; [|reflexivity].
      intros w. rewrite Vo, Hl, zlen_map, (ints_len _ _ El). reflexivity.
    + intros i c' Hi. unfold getv. cbn [vars]. rewrite Vx, Vv. cbn [bind optr].
      rewrite Ev in Eo. inversion Eo; subst o. cbn [optr].
      rewrite (m_get_ok b c) by (cbn [heap]; apply rd_app_l; auto). reflexivity.
Qed.

(* the shared body on one object: nothing is preserved but the empty object *)
Lemma assign_self x s st : rel s st ->
  matches (assign_body x x s)
    match st x with
    | Some a => if size a =? 0 then Ret (put st x (Some (Cells []))) else UB
    | None => UB
    end.
Proof.
  intros R. unfold assign_body. unfold getv at 1 2. destruct (st x) as [a|] eqn:Ea.
  2:{ rewrite (rel_none _ _ _ R Ea). reflexivity. }
  destruct (rel_some _ _ _ _ R Ea) as [o [Eo [Esz Hsz]]]. rewrite Eo. cbn [bind].
  unfold setv at 1. rewrite (m_del_ok s st x o R Eo). cbn [bind].
  rewrite m_new_ok by lia. cbn [bind heap vars]. unfold setv. cbn [heap vars].
  set (V := fupd (fupd (vars s) x _) x _).
  assert (Vo : forall w, V w = if w =? x then Some (Obj (osz o) (Some (zlen (hfree (heap s) (optr o))))) else vars s w).
  { intros w. unfold V, fupd. destruct (w =? x); reflexivity. }
  clearbody V. rewrite Esz in *.
  assert (Hl : zlen (hfree (heap s) (optr o)) = zlen (heap s)).
  { apply hfree_zlen. intros b E. apply (oldp_ok s st x b R). rewrite Eo. exact E. }
  destruct (Z.eqb_spec (size a) 0) as [E0|N].
  - rewrite E0 in *. cbn. eexists. split; [reflexivity|].
    pose proof (rel_newblock s st x [] V (put st x (Some (Cells []))) R) as H.
    rewrite Eo in H. cbn [oldp] in H. apply H; [|reflexivity]. intros w. rewrite Vo, Hl. reflexivity.
  - cbn [matches]. rewrite zfor_cons by lia. unfold getv. cbn [vars]. rewrite Vo, Z.eqb_refl.
    cbn [bind optr]. rewrite (m_get_ok _ (repeat None (Z.to_nat (size a)))) by (cbn [heap]; apply rd_last).
    unfold cell. rewrite (rd_ok _ _ None) by (rewrite zlen_repeat; lia). cbn [bind].
    rewrite znth_repeat by lia. reflexivity.
Qed.

Lemma exec_set v i a s st : rel s st -> matches (exec (SetAt v i a) s) (vexec (SetAt v i a) st).
Proof.
  intros R. cbn [exec vexec]. unfold o_set, getv. destruct (st v) as [[n|l]|] eqn:Ea.
  - destruct (rel_gone _ _ _ _ R Ea) as [-> _]. reflexivity.
  - destruct (rel_cells _ _ _ _ R Ea) as [b [Ev Hb]]. rewrite Ev. cbn [bind optr].
    change (Z.of_nat (length l)) with (zlen l).
    destruct ((0 <=? i) && (i <? zlen l)) eqn:Ei.
    + rewrite andb_true_iff, Z.leb_le, Z.ltb_lt in Ei. rewrite (m_put_ok b l) by auto.
      cbn [matches]. eexists. split; [reflexivity|]. rewrite replace_zupd by auto.
      apply (rel_inplace s st v l _ b); auto; apply zlen_zupd; auto.
    + rewrite andb_false_iff, Z.leb_gt, Z.ltb_ge in Ei. rewrite (m_put_out b l) by (auto; lia). reflexivity.
  - rewrite (rel_none _ _ _ R Ea). reflexivity.
Qed.

Lemma entry_in l i a : entry (Cells l) i = Some a -> 0 <= i < zlen l.
Proof.
  unfold entry. destruct (Z.leb_spec 0 i); [|discriminate].
  destruct (nth_error l (Z.to_nat i)) eqn:E; [|discriminate]. intros _.
  assert (nth_error l (Z.to_nat i) <> None) by congruence. apply nth_error_Some in H0. unfold zlen. lia.
Qed.

(* a block with the entries [t] replaces that of [v]: new, fill, then delete the old block *)
Lemma rel_realloc s st v o t V' st' :
  rel s st -> vars s v = Some o ->
  (forall w, V' w = if w =? v then Some (Obj (zlen t) (Some (zlen (heap s)))) else vars s w) ->
  (forall w, st' w = if w =? v then Some (Cells t) else st w) ->
  exists H', m_del (optr o) (Mem (heap s ++ [Some t]) (vars s)) = Ret (Mem H' (vars s)) /\ rel (Mem H' V') st'.
Proof.
  intros R Eo HV Hst.
  exists (hfree (heap s) (optr o) ++ [Some t]). split.
  - destruct o as [n [b|]]; cbn [optr hfree]; [|reflexivity].
    destruct (owner_lt s st v b R) as [c Hc]; [exists n; auto|]. destruct (rd_inv _ _ _ Hc) as [Hb _].
    unfold m_del. rewrite (m_blk_ok b c) by (cbn [heap]; apply rd_app_l; auto). cbn [bind fst heap].
    rewrite wr_ok by (rewrite zlen_snoc; lia). cbn [bind vars]. do 2 f_equal.
    unfold zupd. unfold zlen in Hb. rewrite firstn_app, skipn_app.
    replace (Z.to_nat b - length (heap s))%nat with 0%nat by lia.
    replace (S (Z.to_nat b) - length (heap s))%nat with 0%nat by lia.
    cbn [firstn skipn]. rewrite app_nil_r, <- app_assoc. reflexivity.
  - pose proof (rel_newblock s st v t V' st' R HV Hst) as H. rewrite Eo in H. exact H.
Qed.

Lemma exec_add v r m s st : rel s st -> matches (exec (Add v r m) s) (vexec (Add v r m) st).
Proof.
  intros R. cbn [exec vexec]. unfold ip_add_mem, getv. destruct (st v) as [a|] eqn:Ea.
  2:{ rewrite (rel_none _ _ _ R Ea). reflexivity. }
  destruct (rel_some _ _ _ _ R Ea) as [o [Eo [Esz Hsz]]]. rewrite Eo. cbn [bind]. rewrite Esz.
  destruct (Z.ltb_spec r (size a)).
  - destruct a as [n|l].
    + destruct (rel_gone _ _ _ _ R Ea) as [Ev _]. rewrite Ev in Eo. inversion Eo; subst o. reflexivity.
    + destruct (rel_cells _ _ _ _ R Ea) as [b [Ev Hb]]. rewrite Ev in Eo. inversion Eo; subst o. cbn [optr].
      rewrite (m_get_ok b l), cell_entry by auto.
      destruct (entry (Cells l) r) as [x|] eqn:Er; [|reflexivity]. cbn [o2 bind].
      pose proof (entry_in _ _ _ Er) as Hr. rewrite (m_put_ok b l) by auto. cbn [matches].
      eexists. split; [reflexivity|]. rewrite replace_zupd by auto.
      apply (rel_inplace s st v l _ b); auto; apply zlen_zupd; auto.
  - rewrite m_new_ok by lia. cbn [bind].
    set (src := fun i => match a with Gone _ => UB | Cells c => cell c i end).
    rewrite (fill_loop _ _ _ _ _ src); [|lia|lia|].
    2:{ intros i c Hi. unfold src. destruct a as [n|l].
        - destruct (rel_gone _ _ _ _ R Ea) as [Ev _]. rewrite Ev in Eo. inversion Eo; subst o. reflexivity.
        - destruct (rel_cells _ _ _ _ R Ea) as [b [Ev Hb]]. rewrite Ev in Eo. inversion Eo; subst o. cbn [optr].
          rewrite (m_get_ok b l) by (cbn [heap]; apply rd_app_l; auto). reflexivity. }
    assert (Ht : tabM (size a) src = o2 (contents a)).
    { unfold src. destruct a as [n|l]; cbn [size contents] in *; [|apply tabM_cell].
      destruct (Z.eqb_spec n 0) as [->|]; [reflexivity|]. rewrite tabM_const_ub by lia. reflexivity. }
    rewrite Ht. destruct (contents a) as [l|] eqn:El; cbn [o2 bind]; [|reflexivity].
    assert (Hl : zlen l = size a).
    { destruct a as [n|c]; cbn [size contents] in *.
      - destruct (Z.eqb_spec n 0) as [->|]; inversion El. reflexivity.
      - rewrite (ints_len _ _ El). reflexivity. }
    replace (Z.to_nat (size a + 1) - Z.to_nat (size a))%nat with 1%nat by lia. cbn [repeat].
    rewrite (m_put_ok _ (map Some l ++ [None])).
    2:{ cbn [heap]. apply rd_last. }
    2:{ rewrite zlen_snoc, zlen_map. lia. }
    cbn [bind heap vars]. rewrite zupd_app_last.
    replace (size a) with (zlen (map (@Some Z) l)) by (rewrite zlen_map; auto). rewrite zupd_app_last.
    pose proof (rel_realloc s st v o (map Some (l ++ [m]))
      (fupd (vars s) v (Some (Obj (zlen (map Some l) + 1) (Some (zlen (heap s))))))
      (put st v (Some (full (l ++ [m])))) R Eo) as [H' [D1 D2]].
    { intros w. unfold fupd. rewrite map_app. cbn [map]. rewrite zlen_snoc. reflexivity. }
    { reflexivity. }
    rewrite map_app in D1. cbn [map] in D1. rewrite D1. cbn [bind matches]. eexists. split; [reflexivity|]. exact D2.
Qed.

Lemma zupd_removelast {A} (l : list A) : l <> [] -> forall d, l = removelast l ++ [znth l (zlen l - 1) d].
Proof.
  intros H d. destruct (exists_last H) as [l' [x ->]].
  rewrite removelast_last, zlen_snoc. f_equal. f_equal.
  rewrite znth_app by (pose proof (zlen_nonneg l'); lia).
  replace (zlen l' + 1 - 1) with (zlen l') by lia. rewrite Z.ltb_irrefl, Z.sub_diag. reflexivity.
Qed.

Lemma exec_remove v r m s st : rel s st -> matches (exec (Remove v r m) s) (vexec (Remove v r m) st).
Proof.
  intros R. cbn [exec vexec]. unfold ip_remove_mem. unfold getv at 1. destruct (st v) as [[n|l]|] eqn:Ea.
  - destruct (rel_gone _ _ _ _ R Ea) as [-> _]. reflexivity.
  - destruct (rel_cells _ _ _ _ R Ea) as [b [Ev Hb]]. rewrite Ev. cbn [bind optr osz].
    rewrite (m_get_ok b l), cell_entry by auto.
    destruct (entry (Cells l) r) as [x|] eqn:Er; [|reflexivity]. cbn [o2 bind].
    pose proof (entry_in _ _ _ Er) as Hr. rewrite (m_put_ok b l) by auto. cbn [bind].
    rewrite replace_zupd by auto. set (l' := zupd l r (Some (x - m))).
    assert (Hl' : zlen l' = zlen l) by (apply zlen_zupd; auto).
    cbn [size]. change (Z.of_nat (length l)) with (zlen l).
    destruct (rd_inv _ _ _ Hb) as [Hbr _].
    assert (R1 : rel (Mem (zupd (heap s) b (Some l')) (vars s)) (put st v (Some (Cells l')))).
    { apply (rel_inplace s st v l _ b); auto. }
    set (s1 := Mem (zupd (heap s) b (Some l')) (vars s)) in *.
    assert (Hb1 : rd (heap s1) b = Ret (Some l')).
    { unfold s1. cbn [heap]. rewrite rd_zupd by auto. now rewrite Z.eqb_refl. }
    rewrite (m_get_ok b l'), cell_entry by auto.
    destruct (entry (Cells l') (zlen l - 1)) as [z|] eqn:Ez; [|reflexivity]. cbn [o2 bind].
    destruct (Z.eqb_spec z 0) as [->|Nz].
    + rewrite m_new_ok by lia. cbn [bind].
      assert (Hne : l' <> []) by (intros E; rewrite E in Hl'; change (zlen []) with 0 in Hl'; lia).
      pose proof (zupd_removelast l' Hne None) as Hsp.
      assert (Hrl : zlen (removelast l') = zlen l - 1).
      { apply (f_equal zlen) in Hsp. rewrite zlen_snoc in Hsp. lia. }
      rewrite (fill_loop _ _ _ _ _ (cell l')); [|lia|lia|].
      2:{ intros i c Hi. rewrite (m_get_ok b l') by (cbn [heap]; apply rd_app_l; auto). reflexivity. }
      rewrite <- Hrl.
      assert (Htab : tabM (zlen (removelast l')) (cell l') = o2 (ints (removelast l'))).
      { pose proof (tabM_first (removelast l') (znth l' (zlen l' - 1) None)) as T.
        now rewrite <- Hsp in T. }
      rewrite Htab.
      destruct (ints (removelast l')) as [t|] eqn:Et; cbn [o2 bind]; [|reflexivity].
      rewrite app_repeat0 by lia.
      pose proof (rel_realloc s1 (put st v (Some (Cells l'))) v (Obj (zlen l) (Some b)) (map Some t)
        (fupd (vars s) v (Some (Obj (zlen (removelast l')) (Some (zlen (heap s1))))))
        (put st v (Some (full t))) R1 Ev) as [H' [D1 D2]].
      { intros w. unfold fupd. rewrite zlen_map, (ints_len _ _ Et). reflexivity. }
      { intros w. unfold put, full. destruct (w =? v); reflexivity. }
      cbn [optr] in D1. rewrite D1. cbn [bind matches]. eexists. split; [reflexivity|]. exact D2.
    + cbn [matches]. eexists. split; [reflexivity|]. exact R1.
  - rewrite (rel_none _ _ _ R Ea). reflexivity.
Qed.

Lemma exec_destroy v s st : rel s st -> matches (exec (Destroy v) s) (vexec (Destroy v) st).
Proof.
  intros R. cbn [exec vexec]. unfold dtor, getv. destruct (st v) as [a|] eqn:Ea.
  2:{ rewrite (rel_none _ _ _ R Ea). reflexivity. }
  destruct (rel_some _ _ _ _ R Ea) as [o [Eo _]]. rewrite Eo. cbn [bind].
  pose proof (m_del_ok s st v o R Eo (vars s)) as D. destruct s as [H V]. cbn [heap vars] in *.
  rewrite D. cbn [bind matches]. eexists. split; [reflexivity|].
  pose proof (rel_free (Mem H V) st v (fupd V v None) (put st v None) R) as F. cbn [heap vars] in F.
  rewrite Eo in F. apply F; reflexivity.
Qed.
