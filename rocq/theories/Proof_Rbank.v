(* The bank of representations: histories of requests. *)
From Coq Require Import ZArith List Bool Lia ZifyBool Sorting.Sorted.
From Verif Require Import Model_Base Model_Part Model_Comb Model_Tab Model_Irrep Model_Type.
From Verif Require Import Spec_Part Spec_Tab Spec_Type.
From Verif Require Import Proof_Base Proof_Part Proof_PartProps Proof_Map Proof_Type Proof_Rept Proof_Rept2.
Import ListNotations.
Open Scope Z_scope.

(* ---- the order of types ---- *)

Definition Rp (x y : list Z * Z) : Prop := lex_greater (fst x) (fst y) \/ (fst x = fst y /\ snd x < snd y).
Fixpoint Rt (x y : list (list Z * Z)) : Prop :=
  match x, y with
  | p :: x', q :: y' => Rp p q \/ (p = q /\ Rt x' y')
  | [], _ :: _ => True
  | _, [] => False
  end.

Lemma tdec : forall a b : list (list Z * Z), {a = b} + {a <> b}.
Proof. apply list_eq_dec. intros (a, x) (b, y). destruct (pdec a b) as [->|]; [destruct (Z.eq_dec x y) as [->|]; [left; auto|right; congruence]|right; congruence]. Qed.

Lemma Rp_irr p : ~ Rp p p.
Proof. intros [H|(_ & H)]; [exact (lex_irrefl _ H)|lia]. Qed.
Lemma Rp_tr p q r : Rp p q -> Rp q r -> Rp p r.
Proof. intros [A|(A & A')] [B|(B & B')]; unfold Rp; [left; eapply lex_trans; eauto|left; rewrite <- B; auto|left; rewrite A; auto|right; split; [congruence|lia]]. Qed.
Lemma Rt_irr t : ~ Rt t t.
Proof. induction t as [|p t IH]; cbn; auto. intros [H|(_ & H)]; [exact (Rp_irr _ H)|auto]. Qed.
Lemma Rt_tr a b c : Rt a b -> Rt b c -> Rt a c.
Proof.
  revert b c. induction a as [|p a IH]; intros [|q b] [|r c]; cbn; auto; try tauto. intros [A|(A & A')] [B|(B & B')]; subst; auto.
  - left. eapply Rp_tr; eauto.
  - right. split; eauto.
Qed.

Lemma type_inv n p t : type_of n (p :: t) -> is_part n (fst p) /\ type_of n t.
Proof. intros (A & B). cbn in A, B. inversion A; inversion B; subst. split; auto. split; auto. Qed.

Lemma Rt_tot n a b : type_of n a -> type_of n b -> Rt a b \/ a = b \/ Rt b a.
Proof.
  revert b. induction a as [|(k, m) a IH]; intros [|(k', m') b] A B; cbn; auto. apply type_inv in A as (P & A). apply type_inv in B as (Q & B). cbn in P, Q. unfold Rp. cbn [fst snd].
  destruct (htot n k k' P Q) as [H|[H|H]]; auto. subst k'. destruct (Z.lt_total m m') as [H|[H|H]]; [left; left; right; auto| |right; right; left; right; auto]. subst m'. destruct (IH b A B) as [H|[H|H]]; auto. subst. auto.
Qed.

Lemma pair_lt_ok n p q : is_part n (fst p) -> is_part n (fst q) -> exists v, pair_lt p q = Ret v /\ (v = true <-> Rp p q).
Proof.
  intros P Q. unfold pair_lt, Rp. destruct (ip_lt_ok n (fst p) (fst q) P Q) as (a & E & H). rewrite E. cbn [bind]. destruct a.
  - exists true. split; auto. split; auto. intros _. left. apply H; auto.
  - destruct (ip_lt_ok n (fst q) (fst p) Q P) as (b & E' & H'). rewrite E'. cbn [bind]. destruct b.
    + exists false. split; auto. split; [discriminate|]. intros [A|(A & _)]; [apply H in A; discriminate|]. destruct (lex_irrefl (fst q)). pose proof (proj1 H' eq_refl) as Z. rewrite A in Z. auto.
    + exists (snd p <? snd q). split; auto. destruct (htot n _ _ P Q) as [A|[A|A]]; [apply H in A; discriminate| |apply H' in A; discriminate]. split; [intros G; right; split; auto; lia|]. intros [B|(_ & B)]; [apply H in B; discriminate|lia].
Qed.

Lemma ty_lt_ok n a b : type_of n a -> type_of n b -> exists v, ty_lt a b = Ret v /\ (v = true <-> Rt a b).
Proof.
  revert b. induction a as [|p a IH]; intros [|q b] A B; cbn [ty_lt Rt].
  - exists false. split; auto. split; [discriminate|tauto].
  - exists true. tauto.
  - exists false. split; auto. split; [discriminate|tauto].
  - apply type_inv in A as (P & A). apply type_inv in B as (Q & B). destruct (pair_lt_ok n p q P Q) as (v & E & H). rewrite E. cbn [bind]. destruct v; [exists true; split; auto; split; auto; intros _; left; apply H; auto|].
    destruct (pair_lt_ok n q p Q P) as (w & E' & H'). rewrite E'. cbn [bind]. destruct w.
    + exists false. split; auto. split; [discriminate|]. pose proof (proj1 H' eq_refl) as Z. intros [X|(X & _)]; [apply H in X; discriminate|]. subst. destruct (Rp_irr _ Z).
    + destruct (IH b A B) as (u & E2 & H2). exists u. split; auto. rewrite H2. split; [intros X; right; split; auto|].
      * destruct p as (k, m), q as (k', m'). cbn in *. destruct (htot n k k' P Q) as [Y|[Y|Y]].
        -- assert (Rp (k, m) (k', m')) as Y' by (left; auto). apply H in Y'. discriminate.
        -- subst k'. destruct (Z.lt_total m m') as [Z|[Z|Z]]; [|subst; auto|].
           ++ assert (Rp (k, m) (k, m')) as Y' by (right; auto). apply H in Y'. discriminate.
           ++ assert (Rp (k, m') (k, m)) as Y' by (right; auto). apply H' in Y'. discriminate.
        -- assert (Rp (k', m') (k, m)) as Y' by (left; auto). apply H' in Y'. discriminate.
      * intros [X|(_ & X)]; auto. apply H in X. discriminate.
Qed.

Section TMaps.
  Context {V : Type} (n : Z).
  Definition tvalid (m : list (list (list Z * Z) * V)) := mvalid (type_of n) Rt m.
  Lemma tfind_ok (m : list (list (list Z * Z) * V)) k : tvalid m -> type_of n k -> sm_find ty_lt m k = Ret (aget tdec m k).
  Proof. apply (find_ok ty_lt (type_of n) Rt tdec (ty_lt_ok n) Rt_irr Rt_tr (Rt_tot n)). Qed.
  Lemma tput_ok (m : list (list (list Z * Z) * V)) k v : tvalid m -> type_of n k -> exists m', sm_put ty_lt m k v = Ret m' /\ tvalid m' /\ (forall x, In x (map fst m') <-> x = k \/ In x (map fst m)) /\ forall x, aget tdec m' x = if tdec k x then Some v else aget tdec m x.
  Proof. apply (put_ok ty_lt (type_of n) Rt tdec (ty_lt_ok n) Rt_irr Rt_tr (Rt_tot n)). Qed.
End TMaps.

(* ---- the heap ---- *)

Lemma rh_set_len h a o : length (rh_set h a o) = length h.
Proof. revert a. induction h as [|x h IH]; intros [|a]; cbn; auto. Qed.
Lemma rh_set_nth h a o b : nth_error (rh_set h a o) b = if Nat.eq_dec a b then (match nth_error h a with Some _ => Some o | None => None end) else nth_error h b.
Proof.
  revert a b. induction h as [|x h IH]; intros a b.
  - cbn [rh_set]. replace (nth_error (@nil robj) b) with (@None robj) by (destruct b; auto). replace (nth_error (@nil robj) a) with (@None robj) by (destruct a; auto). destruct (Nat.eq_dec a b); auto.
  - destruct a as [|a], b as [|b]; cbn [rh_set nth_error]; destruct (Nat.eq_dec _ _) as [E|E]; auto; try lia; rewrite IH; destruct (Nat.eq_dec a b); auto; lia.
Qed.
Lemma nth_snoc {A} (h : list A) x b : nth_error (h ++ [x]) b = if Nat.eq_dec b (length h) then Some x else nth_error h b.
Proof.
  destruct (Nat.eq_dec b (length h)) as [->|N]; [rewrite nth_error_app2, Nat.sub_diag by auto; auto|]. destruct (Nat.lt_ge_cases b (length h)).
  - apply nth_error_app1; auto.
  - rewrite nth_error_app2 by auto. rewrite (proj2 (nth_error_None h b)) by lia. destruct (b - length h)%nat eqn:E; [lia|]. cbn. destruct n; auto.
Qed.
Lemma nth_lt {A} (h : list A) a o : nth_error h a = Some o -> (a < length h)%nat.
Proof. intros H. apply nth_error_Some. congruence. Qed.

Definition obj_ok (h : list robj) (a : nat) (o : robj) : Prop :=
  (exists m, 1 <= m /\ rvalid m (ro_iso o)) /\
  (forall b, ro_induced o = Some b -> exists o', nth_error h b = Some o' /\ rep_induce (ro_iso o) = Ret (ro_iso o') /\ ro_restricted o' = Some a) /\
  (forall c, ro_restricted o = Some c -> exists o', nth_error h c = Some o' /\ ro_induced o' = Some a).

Record binv (n : Z) (b : rbank) : Prop := mkBinv {
  bi_keys : tvalid n (rb_reps b);
  bi_reps : forall tau a, aget tdec (rb_reps b) tau = Some a -> exists o, nth_error (rb_heap b) a = Some o /\ ro_iso o = isos_of tau /\ ro_restricted o = None;
  bi_objs : forall a o, nth_error (rb_heap b) a = Some o -> obj_ok (rb_heap b) a o
}.

(* nothing that was answered changes *)
Definition ext (b b' : rbank) : Prop :=
  (forall tau a, aget tdec (rb_reps b) tau = Some a -> aget tdec (rb_reps b') tau = Some a) /\
  (forall a o, nth_error (rb_heap b) a = Some o -> exists o', nth_error (rb_heap b') a = Some o' /\ ro_iso o' = ro_iso o /\ ro_restricted o' = ro_restricted o /\ forall c, ro_induced o = Some c -> ro_induced o' = Some c).
Lemma ext_refl b : ext b b.
Proof. split; auto. intros a o H. exists o. auto. Qed.
Lemma ext_trans a b c : ext a b -> ext b c -> ext a c.
Proof. intros (A & A') (B & B'). split; auto. intros x o H. destruct (A' x o H) as (o1 & H1 & I1 & R1 & X1). destruct (B' x o1 H1) as (o2 & H2 & I2 & R2 & X2). exists o2. repeat split; auto; congruence. Qed.

Definition rb0 : rbank := mkRbank [] [].
Lemma binv0 n : binv n rb0.
Proof. split; cbn; [split; constructor|discriminate|]. intros [|a] o; discriminate. Qed.

Definition fact (b : rbank) (o : rop) (a : nat) : Prop :=
  match o with
  | RGet tau => aget tdec (rb_reps b) tau = Some a
  | RInd c => exists x, nth_error (rb_heap b) c = Some x /\ ro_induced x = Some a
  | RRes c => exists x, nth_error (rb_heap b) c = Some x /\ ro_restricted x = Some a
  end.
Lemma fact_ext b b' o a : ext b b' -> fact b o a -> fact b' o a.
Proof.
  intros (E1 & E2). destruct o as [tau|c|c]; cbn; auto.
  - intros (x & H & I). destruct (E2 c x H) as (x' & H' & _ & _ & X). exists x'. auto.
  - intros (x & H & I). destruct (E2 c x H) as (x' & H' & _ & R & _). exists x'. split; auto. congruence.
Qed.

Lemma get_ok n b tau : 1 <= n -> binv n b -> type_of n tau -> exists a b', rb_get b tau = Ret (a, b') /\ binv n b' /\ ext b b' /\ fact b' (RGet tau) a.
Proof.
  intros Hn I T. unfold rb_get. rewrite (tfind_ok n) by (auto; apply (bi_keys n b I)). cbn [bind]. destruct (aget tdec (rb_reps b) tau) as [a|] eqn:Q.
  - cbn [bind]. rewrite (tfind_ok n) by (auto; apply (bi_keys n b I)). cbn [bind]. rewrite Q. exists a, b. split; auto. split; auto. split; [apply ext_refl|exact Q].
  - destruct (rep_isos_ok n tau T) as (E & V). rewrite E. cbn [bind]. destruct (tput_ok n (rb_reps b) tau (length (rb_heap b)) (bi_keys n b I) T) as (m' & E' & V' & K & A). rewrite E'. cbn [bind].
    cbn [rb_reps]. rewrite (tfind_ok n) by auto. cbn [bind]. assert (aget tdec m' tau = Some (length (rb_heap b))) as G by (rewrite A; destruct (tdec tau tau); [auto|contradiction]). rewrite G.
    eexists _, _. split; [reflexivity|]. split; [|split; [|exact G]].
    + split; cbn [rb_reps rb_heap]; auto.
      * intros t a. rewrite A. destruct (tdec tau t) as [<-|].
        -- intros H. injection H as <-. exists (mkRobj (isos_of tau) None None). rewrite nth_snoc. destruct (Nat.eq_dec _ _); [auto|contradiction].
        -- intros H. destruct (bi_reps n b I t a H) as (o & O1 & O2 & O3). exists o. rewrite nth_snoc. pose proof (nth_lt _ _ _ O1). destruct (Nat.eq_dec a (length (rb_heap b))); [lia|auto].
      * assert (forall a o, nth_error (rb_heap b) a = Some o -> nth_error (rb_heap b ++ [mkRobj (isos_of tau) None None]) a = Some o) as EX by (intros a o H; rewrite nth_snoc; pose proof (nth_lt _ _ _ H); destruct (Nat.eq_dec a (length (rb_heap b))); [lia|auto]).
        intros a o. rewrite nth_snoc. destruct (Nat.eq_dec a (length (rb_heap b))).
        -- intros H. injection H as <-. split; [exists n; auto|]. split; discriminate.
        -- intros H. destruct (bi_objs n b I a o H) as (O1 & O2 & O3). split; auto. split; intros c Hc; [destruct (O2 c Hc) as (o' & X & Y)|destruct (O3 c Hc) as (o' & X & Y)]; exists o'; auto.
    + split; cbn [rb_reps rb_heap].
      * intros t a H. rewrite A. destruct (tdec tau t) as [<-|]; [congruence|auto].
      * intros a o H. exists o. rewrite nth_snoc. pose proof (nth_lt _ _ _ H). destruct (Nat.eq_dec a (length (rb_heap b))); [lia|auto].
Qed.

Lemma ind_ok n b c o : binv n b -> nth_error (rb_heap b) c = Some o -> exists a b', rstep (RInd c) b = Ret (a, b') /\ binv n b' /\ ext b b' /\ fact b' (RInd c) a.
Proof.
  intros I H. cbn [rstep]. unfold rep_get_induced, rh_get. rewrite H. cbn [bind]. destruct (ro_induced o) as [a|] eqn:Q.
  - cbn [bind fst snd]. exists a, b. destruct b. split; auto. split; auto. split; [apply ext_refl|]. exists o. auto.
  - destruct (bi_objs n b I c o H) as ((m & Hm & V) & O2 & O3). destruct (rep_type_ok m _ V) as (E & _). rewrite E. cbn [bind]. destruct (induce_ok m _ V Hm) as (r' & E' & V' & _). rewrite E'. cbn [bind fst snd].
    eexists _, _. split; [reflexivity|]. pose proof (nth_lt _ _ _ H) as Lc.
    set (h' := rh_set (rb_heap b) c (mkRobj (ro_iso o) (Some (length (rb_heap b))) (ro_restricted o)) ++ [mkRobj r' None (Some c)]).
    assert (forall a, nth_error h' a = if Nat.eq_dec a (length (rb_heap b)) then Some (mkRobj r' None (Some c)) else if Nat.eq_dec c a then Some (mkRobj (ro_iso o) (Some (length (rb_heap b))) (ro_restricted o)) else nth_error (rb_heap b) a) as NT.
    { intros a. unfold h'. rewrite nth_snoc, rh_set_len, rh_set_nth, H. auto. }
    assert (forall a x, nth_error (rb_heap b) a = Some x -> exists x', nth_error h' a = Some x' /\ ro_iso x' = ro_iso x /\ ro_restricted x' = ro_restricted x /\ forall d, ro_induced x = Some d -> ro_induced x' = Some d) as EX.
    { intros a x Hx. rewrite NT. pose proof (nth_lt _ _ _ Hx). destruct (Nat.eq_dec a (length (rb_heap b))); [lia|]. destruct (Nat.eq_dec c a) as [<-|]; [|exists x; auto]. rewrite H in Hx. injection Hx as <-. eexists. split; [reflexivity|]. cbn. split; auto. split; auto. intros d Hd. congruence. }
    split; [|split; [split; cbn [rb_reps rb_heap]; auto|]].
    + split; cbn [rb_reps rb_heap]; [apply (bi_keys n b I)| |].
      * intros t a Ha. destruct (bi_reps n b I t a Ha) as (x & X1 & X2 & X3). destruct (EX a x X1) as (x' & X1' & X2' & X3' & _). exists x'. repeat split; auto; congruence.
      * intros a x. fold h'. rewrite NT. destruct (Nat.eq_dec a (length (rb_heap b))) as [->|].
        -- intros Hx. injection Hx as <-. split; [exists (m + 1); split; [lia|auto]|]. split; [discriminate|]. cbn. intros d Hd. injection Hd as <-. exists (mkRobj (ro_iso o) (Some (length (rb_heap b))) (ro_restricted o)). split; auto. rewrite NT. destruct (Nat.eq_dec c (length (rb_heap b))); [lia|]. destruct (Nat.eq_dec c c); [auto|contradiction].
        -- destruct (Nat.eq_dec c a) as [<-|NE].
           ++ intros Hx. injection Hx as <-. split; [exists m; auto|]. cbn [ro_iso ro_induced ro_restricted]. split.
              ** intros d Hd. injection Hd as <-. exists (mkRobj r' None (Some c)). rewrite NT. destruct (Nat.eq_dec (length (rb_heap b)) (length (rb_heap b))); [auto|contradiction].
              ** intros d Hd. destruct (O3 d Hd) as (y & Y1 & Y2). destruct (EX d y Y1) as (y' & Z1 & _ & _ & Z2). exists y'. auto.
           ++ intros Hx. destruct (bi_objs n b I a x Hx) as (P1 & P2 & P3). split; auto. split.
              ** intros d Hd. destruct (P2 d Hd) as (y & Y1 & Y2 & Y3). destruct (EX d y Y1) as (y' & Z1 & Z2 & Z3 & _). exists y'. rewrite Z2, Z3. auto.
              ** intros d Hd. destruct (P3 d Hd) as (y & Y1 & Y2). destruct (EX d y Y1) as (y' & Z1 & _ & _ & Z2). exists y'. auto.
    + cbn [fact rb_heap]. fold h'. exists (mkRobj (ro_iso o) (Some (length (rb_heap b))) (ro_restricted o)). rewrite NT. destruct (Nat.eq_dec c (length (rb_heap b))); [lia|]. destruct (Nat.eq_dec c c); [auto|contradiction].
Qed.

Lemma bstep_ok n b o a b' : 1 <= n -> binv n b -> legal_rop n o -> rstep o b = Ret (a, b') -> binv n b' /\ ext b b' /\ fact b' o a.
Proof.
  intros Hn I L E. destruct o as [tau|c|c]; cbn [legal_rop] in L.
  - cbn [rstep] in E. destruct (get_ok n b tau Hn I L) as (a1 & b1 & E1 & A & B & C). rewrite E in E1. apply Ret_inj in E1. injection E1 as <- <-. auto.
  - destruct (nth_error (rb_heap b) c) as [o|] eqn:Q; [|cbn [rstep] in E; unfold rep_get_induced, rh_get in E; rewrite Q in E; discriminate]. destruct (ind_ok n b c o I Q) as (a1 & b1 & E1 & A & B & C). rewrite E in E1. apply Ret_inj in E1. injection E1 as <- <-. auto.
  - cbn [rstep] in E. unfold rep_get_restricted, rh_get in E. destruct (nth_error (rb_heap b) c) as [o|] eqn:Q; [|discriminate]. cbn [bind] in E. destruct (ro_restricted o) as [x|] eqn:Q'; [|discriminate]. cbn [bind] in E. apply Ret_inj in E. injection E as <- <-. split; auto. split; [apply ext_refl|]. exists o. auto.
Qed.

Lemma brun_ok n os b aa b' : 1 <= n -> binv n b -> Forall (legal_rop n) os -> rrun os b = Ret (aa, b') -> binv n b' /\ ext b b' /\ length aa = length os /\ forall o a, In (o, a) (combine os aa) -> fact b' o a.
Proof.
  intros Hn. revert b aa. induction os as [|o os IH]; intros b aa I F E; cbn [rrun] in E.
  - apply Ret_inj in E. injection E as <- <-. split; auto. split; [apply ext_refl|]. split; auto. intros o a [].
  - inversion F; subst. destruct (rstep o b) as [(a, b1)| | |] eqn:Q; try discriminate. cbn [bind fst snd] in E. destruct (rrun os b1) as [(aa1, b2)| | |] eqn:Q'; try discriminate. cbn [bind fst snd] in E. apply Ret_inj in E. injection E as <- <-.
    destruct (bstep_ok n b o a b1 Hn I H1 Q) as (I1 & X1 & F1). destruct (IH b1 aa1 I1 H2 Q') as (I2 & X2 & L2 & F2). split; auto. split; [eapply ext_trans; eauto|]. split; [cbn; lia|]. intros o' a' [H|H]; [injection H as <- <-; eapply fact_ext; eauto|auto].
Qed.

(* ---- C50 ---- *)

Lemma type_at_fact n b tau a : binv n b -> type_of n tau -> fact b (RGet tau) a -> type_at b a tau.
Proof. intros I T H. destruct (bi_reps n b I tau a H) as (o & A & B & _). exists o. split; auto. rewrite B. destruct (rep_type_ok n (isos_of tau) (proj2 (rep_isos_ok n tau T))) as (E & _). rewrite E, typ_isos. auto. Qed.

Lemma bank_gets n os aa b : 1 <= n -> Forall (legal_rop n) os -> rrun os rb0 = Ret (aa, b) ->
  (forall tau a, In (RGet tau, a) (combine os aa) -> type_at b a tau) /\
  (forall tau a tau' a', In (RGet tau, a) (combine os aa) -> In (RGet tau', a') (combine os aa) -> (a = a' <-> tau = tau')).
Proof.
  intros Hn F E. destruct (brun_ok n os rb0 aa b Hn (binv0 n) F E) as (I & _ & _ & FA).
  assert (forall tau a, In (RGet tau, a) (combine os aa) -> type_of n tau) as LT by (intros tau a H; apply in_combine_l in H; rewrite Forall_forall in F; exact (F _ H)).
  assert (forall tau a, In (RGet tau, a) (combine os aa) -> type_at b a tau) as TA by (intros tau a H; eapply type_at_fact; eauto).
  split; auto. intros tau a tau' a' H H'. split.
  - intros <-. destruct (TA _ _ H) as (o & A & B). destruct (TA _ _ H') as (o' & A' & B'). rewrite A in A'. injection A' as <-. rewrite B in B'. apply Ret_inj in B'. auto.
  - intros <-. apply FA in H, H'. cbn in H, H'. congruence.
Qed.

Lemma ind_type n b c a : binv n b -> fact b (RInd c) a -> exists m t t', 1 <= m /\ type_at b c t /\ type_of m t /\ type_at b a t' /\ induced_type m t t'.
Proof.
  intros I (o & H & Q). destruct (bi_objs n b I c o H) as ((m & Hm & V) & O2 & _). destruct (O2 a Q) as (o' & H' & E & _). destruct (rep_type_ok m _ V) as (T1 & T2). destruct (induce_ok m _ V Hm) as (r' & E' & V' & IT & _). rewrite E in E'. apply Ret_inj in E'. rewrite <- E' in *. destruct (rep_type_ok (m + 1) _ V') as (T3 & _). exists m, (typ (ro_iso o)), (typ (ro_iso o')). split; auto. split; [exists o; auto|]. split; auto. split; auto. exists o'. auto.
Qed.

Lemma ind_back n b c a : binv n b -> fact b (RInd c) a -> fact b (RRes a) c.
Proof. intros I (o & H & Q). destruct (bi_objs n b I c o H) as (_ & O2 & _). destruct (O2 a Q) as (o' & H' & _ & R). exists o'. auto. Qed.
Lemma res_back n b c a : binv n b -> fact b (RRes c) a -> fact b (RInd a) c.
Proof. intros I (o & H & Q). destruct (bi_objs n b I c o H) as (_ & _ & O3). destruct (O3 a Q) as (o' & H' & R). exists o'. auto. Qed.

Lemma bank_inds n os aa b : 1 <= n -> Forall (legal_rop n) os -> rrun os rb0 = Ret (aa, b) ->
  (forall c a, In (RInd c, a) (combine os aa) -> exists m t t', 1 <= m /\ type_at b c t /\ type_of m t /\ type_at b a t' /\ induced_type m t t') /\
  (forall c a c' a', In (RInd c, a) (combine os aa) -> In (RInd c', a') (combine os aa) -> (a = a' <-> c = c')) /\
  (forall c a tau a', In (RInd c, a) (combine os aa) -> In (RGet tau, a') (combine os aa) -> a <> a') /\
  (forall c a c', In (RInd c, a) (combine os aa) -> In (RRes a, c') (combine os aa) -> c' = c).
Proof.
  intros Hn F E. destruct (brun_ok n os rb0 aa b Hn (binv0 n) F E) as (I & _ & _ & FA). split; [|split; [|split]].
  - intros c a H. eapply ind_type; eauto.
  - intros c a c' a' H H'. apply FA in H, H'. split.
    + intros <-. apply (ind_back n b _ _ I) in H as (o & A & B). apply (ind_back n b _ _ I) in H' as (o' & A' & B'). congruence.
    + intros <-. destruct H as (o & A & B), H' as (o' & A' & B'). congruence.
  - intros c a tau a' H H' <-. apply FA in H, H'. apply (ind_back n b _ _ I) in H as (o & A & B). destruct (bi_reps n b I tau a H') as (o' & A' & _ & B'). congruence.
  - intros c a c' H H'. apply FA in H, H'. apply (ind_back n b _ _ I) in H as (o & A & B). destruct H' as (o' & A' & B'). congruence.
Qed.

Lemma fact_live n b o a : binv n b -> fact b o a -> exists x, nth_error (rb_heap b) a = Some x.
Proof.
  intros I H. destruct o as [tau|c|c].
  - destruct (bi_reps n b I tau a H) as (x & X & _). eauto.
  - apply (ind_back n b _ _ I) in H as (x & X & _). eauto.
  - apply (res_back n b _ _ I) in H as (x & X & _). eauto.
Qed.

Lemma bank_answers n os aa b : 1 <= n -> Forall (legal_rop n) os -> rrun os rb0 = Ret (aa, b) ->
  (forall tau, type_of n tau -> exists r, rstep (RGet tau) b = Ret r) /\
  (forall a, In a aa -> exists r, rstep (RInd a) b = Ret r) /\
  (forall c a, In (RInd c, a) (combine os aa) -> rstep (RRes a) b = Ret (c, b)) /\
  (forall tau a, In (RGet tau, a) (combine os aa) -> rstep (RRes a) b = Abort).
Proof.
  intros Hn F E. destruct (brun_ok n os rb0 aa b Hn (binv0 n) F E) as (I & _ & L & FA). split; [|split; [|split]].
  - intros tau T. destruct (get_ok n b tau Hn I T) as (a & b' & Q & _). exists (a, b'). exact Q.
  - intros a Ha. assert (exists o, In (o, a) (combine os aa)) as (o & Ho).
    { clear - Ha L. revert os L. induction aa as [|x aa IH]; intros [|o os] L; try discriminate; [destruct Ha|]. destruct Ha as [<-|Ha]; [exists o; cbn; auto|]. destruct (IH Ha os ltac:(cbn in L; lia)) as (o' & H'). exists o'. cbn. auto. }
    destruct (fact_live n b o a I (FA _ _ Ho)) as (x & X). destruct (ind_ok n b a x I X) as (r & b' & Q & _). eauto.
  - intros c a H. apply FA in H. apply (ind_back n b _ _ I) in H as (o & A & B). cbn [rstep]. unfold rep_get_restricted, rh_get. rewrite A. cbn [bind]. rewrite B. auto.
  - intros tau a H. apply FA in H. destruct (bi_reps n b I tau a H) as (o & A & _ & B). cbn [rstep]. unfold rep_get_restricted, rh_get. rewrite A. cbn [bind]. rewrite B. auto.
Qed.

(* types of two groups in one bank *)
Lemma pair_lt_mixed n m p q : is_part n (fst p) -> is_part m (fst q) -> n <> m -> pair_lt p q = Abort.
Proof. intros P Q N. unfold pair_lt. rewrite lt_mixed_aborts; auto. rewrite (is_part_sum n _ P), (is_part_sum m _ Q). auto. Qed.
Lemma ty_lt_mixed n m t t' : type_of n t -> type_of m t' -> t <> [] -> t' <> [] -> n <> m -> ty_lt t t' = Abort.
Proof. destruct t as [|p t], t' as [|q t']; intros T T' A B N; try contradiction. apply type_inv in T as (P & _). apply type_inv in T' as (Q & _). cbn [ty_lt]. rewrite (pair_lt_mixed n m) by auto. auto. Qed.
Lemma find_mixed n m (r : list (list (list Z * Z) * nat)) t t' : tvalid n r -> In t (map fst r) -> t <> [] -> type_of m t' -> t' <> [] -> n <> m -> sm_find ty_lt r t' = Abort.
Proof.
  intros V H A T' B N. induction r as [|(k, v) r IH]; [contradiction|]. apply mvalid_inv in V as (T & _ & V). cbn [sm_find]. destruct k as [|p k].
  - destruct H as [H|H]; [cbn in H; congruence|]. destruct t'; [contradiction|]. cbn [ty_lt bind]. auto.
  - rewrite (ty_lt_mixed n m) by (auto; discriminate). auto.
Qed.
Lemma bank_mixed n m os aa b t t' : 1 <= n -> Forall (legal_rop n) os -> rrun os rb0 = Ret (aa, b) -> In (RGet t) os -> t <> [] -> type_of m t' -> t' <> [] -> n <> m -> rstep (RGet t') b = Abort.
Proof.
  intros Hn F E H A T' B N. destruct (brun_ok n os rb0 aa b Hn (binv0 n) F E) as (I & _ & L & FA).
  assert (exists a, In (RGet t, a) (combine os aa)) as (a & Ha).
  { clear - H L. revert aa L. induction os as [|o os IH]; intros [|x aa] L; try discriminate; [destruct H|]. destruct H as [->|H]; [exists x; cbn; auto|]. destruct (IH H aa ltac:(cbn in L; lia)) as (a' & H'). exists a'. cbn. auto. }
  apply FA in Ha. cbn [fact] in Ha. apply (aget_some tdec) in Ha. cbn [rstep]. unfold rb_get. rewrite (find_mixed n m (rb_reps b) t t'); auto. apply (bi_keys n b I).
Qed.
