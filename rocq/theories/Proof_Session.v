(* Proofs for C98: histories of sessions. *)
From Coq Require Import List Bool Arith Lia.
From Verif Require Import Model_Base Model_Session Spec_Session Proof_Base.
Import ListNotations.

Lemma put_length {A} i (x : A) l : length (put i x l) = length l.
Proof. revert i. induction l as [|y l IH]; intros [|i]; simpl; auto. Qed.
Lemma put_nth {A} i j (x d : A) l : nth j (put i x l) d = if (i =? j) && (i <? length l) then x else nth j l d.
Proof.
  revert i j. induction l as [|y l IH]; intros i j; [destruct i, j; simpl; try reflexivity; rewrite andb_false_r; reflexivity|]. destruct i, j; simpl; try reflexivity.
  rewrite IH. reflexivity.
Qed.

Definition bnum (b : bank) : nat := match b with BCombi => 1 | BSn => 2 | BRep => 3 | BFft => 4 | BChar => 5 | BCg => 6 end.
Definition cn (i : nat) : nat := match i with O => 0 | S i => 7 + i end.

Definition inv (w : world) : Prop :=
  length (w_heap w) = 6 + length (w_objs w) /\ 0 < length (w_objs w) /\
  (forall b, w_ptr w b = Some (bnum b) /\ nth (bnum b) (w_heap w) false = true) /\
  (forall i, i < length (w_objs w) -> nth i (w_objs w) None = None /\ nth (cn i) (w_heap w) false = false \/
     nth i (w_objs w) None = Some (KSession, Some (cn i)) /\ nth (cn i) (w_heap w) false = true).

Lemma inv0 : inv (new_session w_init).
Proof.
  split; [reflexivity|]. split; [simpl; lia|]. split; [intros []; split; reflexivity|]. intros i Hi. simpl in Hi. assert (i = 0) by lia. subst i. right. split; reflexivity.
Qed.

Lemma cn_lt i n : i < n -> cn i < 6 + n.
Proof. destruct i; simpl; lia. Qed.
Lemma cn_inj i j : cn i = cn j -> i = j.
Proof. destruct i, j; simpl; lia. Qed.
Lemma cn_bnum i b : cn i <> bnum b.
Proof. destruct i, b; simpl; lia. Qed.

Lemma inv_new w : inv w -> inv (new_session w).
Proof.
  intros (L & P & B & O). destruct w as [ptr heap objs]. unfold new_session, alloc, add_obj, is_set. cbn [w_ptr w_heap w_objs] in *. rewrite (proj1 (B BCombi)).
  repeat split; cbn [w_ptr w_heap w_objs].
  - rewrite !app_length. simpl. lia.
  - rewrite app_length. simpl. lia.
  - apply B.
  - rewrite app_nth1; [apply B|]. destruct b; simpl; lia.
  - intros i Hi. rewrite app_length in Hi. simpl in Hi. destruct (Nat.eq_dec i (length objs)) as [->|D].
    + right. rewrite !app_nth2 by (destruct objs; simpl in *; lia). rewrite Nat.sub_diag. assert (E : cn (length objs) = length heap) by (destruct objs; simpl in *; lia).
      rewrite E, Nat.sub_diag. split; reflexivity.
    + assert (Hi' : i < length objs) by lia. rewrite !app_nth1; [apply O, Hi'| |exact Hi']. rewrite L. apply cn_lt, Hi'.
Qed.

Lemma inv_destroy w i : inv w -> nth i (w_objs w) None <> None -> exists w', destroy i w = Ret w' /\ inv w' /\ w_objs w' = put i None (w_objs w) /\ (forall b, w_ptr w' b = w_ptr w b).
Proof.
  intros (L & P & B & O) H. assert (Hi : i < length (w_objs w)).
  { destruct (Nat.lt_ge_cases i (length (w_objs w))) as [D|D]; [exact D|]. rewrite nth_overflow in H by exact D. congruence. }
  destruct (O i Hi) as [[E _]|[E A]]; [congruence|]. unfold destroy. rewrite E. unfold delete. rewrite A. cbn [bind].
  eexists. split; [reflexivity|]. cbn [w_ptr w_heap w_objs]. split; [|split; reflexivity]. repeat split; cbn [w_ptr w_heap w_objs].
  - rewrite !put_length. exact L.
  - rewrite put_length. exact P.
  - apply B.
  - rewrite put_nth. destruct (Nat.eqb_spec (cn i) (bnum b)) as [D|D]; [exfalso; exact (cn_bnum _ _ D)|apply B].
  - intros j Hj. rewrite put_length in Hj. rewrite !put_nth. pose proof (cn_lt i _ Hi) as C. rewrite <- L in C. apply Nat.ltb_lt in C. apply Nat.ltb_lt in Hi. rewrite C, Hi, !andb_true_r.
    destruct (Nat.eqb_spec i j) as [->|D]; [rewrite Nat.eqb_refl; left; auto|]. destruct (Nat.eqb_spec (cn i) (cn j)) as [D'|D']; [apply cn_inj in D'; contradiction|]. apply O, Hj.
Qed.

Lemma inv_use w b : inv w -> use b w = Ret w.
Proof. intros (L & P & B & O). unfold use. destruct (B b) as [-> ->]. reflexivity. Qed.

Lemma new_ptr w : inv w -> forall b, w_ptr (new_session w) b = w_ptr w b.
Proof. intros (L & P & B & O) b. unfold new_session, alloc, add_obj, is_set. cbn [w_ptr]. rewrite (proj1 (B BCombi)). reflexivity. Qed.
Lemma new_objs w : inv w -> w_objs (new_session w) = w_objs w ++ [Some (KSession, Some (length (w_heap w)))].
Proof. intros (L & P & B & O). unfold new_session, alloc, add_obj, is_set. cbn [w_ptr w_heap w_objs]. rewrite (proj1 (B BCombi)). reflexivity. Qed.

Lemma tidy_run live next os : tidy live next os -> forall w, inv w -> next = length (w_objs w) -> (forall i, In i live -> nth i (w_objs w) None <> None) ->
  exists w', srun os w = Ret w' /\ inv w' /\ (forall b, w_ptr w' b = w_ptr w b).
Proof.
  induction 1 as [live next|live next os H IH|live next i os Hi H IH|live next b os H IH]; intros w I En Lv.
  - exists w. split; [reflexivity|]. auto.
  - cbn [srun sstep bind]. destruct (IH (new_session w)) as (w' & R & I' & P').
    + apply inv_new, I.
    + rewrite new_objs by exact I. rewrite app_length. simpl. lia.
    + rewrite new_objs by exact I. intros i [<-|Hi].
      * subst next. rewrite app_nth2 by lia. rewrite Nat.sub_diag. discriminate.
      * specialize (Lv i Hi). rewrite app_nth1; [exact Lv|]. destruct (Nat.lt_ge_cases i (length (w_objs w))) as [D|D]; [exact D|]. rewrite nth_overflow in Lv by exact D. congruence.
    + exists w'. split; [exact R|]. split; [exact I'|]. intros b. rewrite P'. apply new_ptr, I.
  - cbn [srun sstep]. destruct (inv_destroy w i I (Lv i Hi)) as (w1 & D & I1 & O1 & P1). rewrite D. cbn [bind]. destruct (IH w1) as (w' & R & I' & P').
    + exact I1.
    + rewrite O1, put_length. exact En.
    + intros j Hj. apply in_remove in Hj. rewrite O1, put_nth. destruct (Nat.eqb_spec i j) as [E|E]; [subst; tauto|]. simpl. apply Lv. tauto.
    + exists w'. split; [exact R|]. split; [exact I'|]. intros b. rewrite P'. apply P1.
  - cbn [srun sstep]. rewrite inv_use by exact I. cbn [bind]. apply IH; auto.
Qed.

Lemma filter_map_len {A B} (f : B -> bool) (g : A -> B) l : length (filter f (map g l)) = length (filter (fun x => f (g x)) l).
Proof. induction l as [|x l IH]; [reflexivity|]. simpl. destruct (f (g x)); simpl; rewrite IH; reflexivity. Qed.
Lemma filter_seq {A} (f : A -> bool) d l : length (filter f l) = length (filter (fun i => f (nth i l d)) (seq 0 (length l))).
Proof.
  induction l as [|x l IH]; [reflexivity|]. cbn [length seq]. rewrite <- seq_shift. cbn [filter nth].
  assert (E : forall k, length (filter (fun i => f (nth i (x :: l) d)) (map S k)) = length (filter (fun i => f (nth i l d)) k)).
  { intros k. exact (filter_map_len (fun i => f (nth i (x :: l) d)) S k). }
  destruct (f x); cbn [length]; [f_equal|]; exact (eq_trans IH (eq_sym (E _))).
Qed.
Lemma filter_ext_in_len {A} (f g : A -> bool) l : (forall x, In x l -> f x = g x) -> length (filter f l) = length (filter g l).
Proof. intros H. rewrite (filter_ext_in f g l H). reflexivity. Qed.

Lemma inv_count w : inv w -> alive_count (w_heap w) = 6 + live_objs w.
Proof.
  intros (L & P & B & O). unfold alive_count, live_objs. rewrite (filter_seq (fun x : bool => x) false), (filter_seq (A := option (kind * option nat)) _ None). rewrite L.
  destruct (length (w_objs w)) as [|n] eqn:N; [lia|].
  assert (F : forall i, i < S n -> nth (cn i) (w_heap w) false = match nth i (w_objs w) None with Some _ => true | None => false end).
  { intros i Hi. destruct (O i Hi) as [[-> ->]|[-> ->]]; reflexivity. }
  change (6 + S n) with (7 + n). rewrite seq_app, filter_app, app_length. cbn [seq]. cbn [filter Nat.add].
  rewrite (proj2 (B BCombi) : nth 1 _ _ = _), (proj2 (B BSn) : nth 2 _ _ = _), (proj2 (B BRep) : nth 3 _ _ = _), (proj2 (B BFft) : nth 4 _ _ = _), (proj2 (B BChar) : nth 5 _ _ = _), (proj2 (B BCg) : nth 6 _ _ = _).
  pose proof (F 0 ltac:(lia)) as F0. cbn [cn] in F0. rewrite F0.
  assert (E : length (filter (fun i => nth i (w_heap w) false) (seq 7 n)) = length (filter (fun i => match nth i (w_objs w) None with Some _ => true | None => false end) (seq 1 n))).
  { assert (S7 : seq 7 n = map (fun i => 6 + i) (seq 1 n)). { clear. assert (Q : forall a, seq (6 + a) n = map (fun i => 6 + i) (seq a n)); [|exact (Q 1)]. induction n as [|n IH]; intros a; [reflexivity|]. cbn [seq map]. f_equal. apply (IH (S a)). }
    rewrite S7, filter_map_len. apply filter_ext_in_len. intros i Hi. apply in_seq in Hi. destruct i as [|i]; [lia|]. rewrite <- (F (S i)) by lia. reflexivity. }
  destruct (nth 0 (w_objs w) None) eqn:N0; cbn [filter length app]; rewrite ?N0; cbn [length]; rewrite E; lia.
Qed.

Theorem sessions os : tidy [] 0 (New KSession :: os) -> exists w, srun (New KSession :: os) w_init = Ret w /\
  (forall b, use b w = Ret w) /\ (forall b, w_ptr w b = w_ptr (new_session w_init) b) /\ alive_count (w_heap w) = 6 + live_objs w.
Proof.
  intros H. inversion H as [|? ? ? H'| |]; subst. cbn [srun sstep bind].
  destruct (tidy_run [0] 1 os H' (new_session w_init) inv0 eq_refl) as (w & R & I & P).
  - intros i [<-|[]]. discriminate.
  - exists w. split; [exact R|]. split; [intros b; apply inv_use, I|]. split; [exact P|apply inv_count, I].
Qed.

(* before the first session *)
Lemma too_early b os : srun (Use b :: os) w_init = UB.
Proof. destruct b; reflexivity. Qed.

(* once a CombinatorialClasses object was made first, no number of sessions makes the other banks *)
Definition onlycombi (w : world) : Prop := w_ptr w BCombi <> None /\ forall b, b <> BCombi -> w_ptr w b = None.
Lemma combi_step w o : onlycombi w -> (o = New KSession \/ o = New KCombi \/ o = Use BCombi \/ exists i, o = Destroy i) -> forall w', sstep o w = Ret w' -> onlycombi w'.
Proof.
  intros [A B] Ho w' E. destruct Ho as [->|[->|[->|[i ->]]]]; cbn [sstep] in E.
  - apply Ret_inj in E. subst w'. unfold new_session, alloc, add_obj, is_set. cbn [w_ptr]. destruct (w_ptr w BCombi) eqn:D; [|congruence]. split; cbn [w_ptr]; [congruence|exact B].
  - apply Ret_inj in E. subst w'. unfold new_combi, add_obj, is_set. cbn [w_ptr]. destruct (w_ptr w BCombi) eqn:D; [|congruence]. split; cbn [w_ptr]; [congruence|exact B].
  - unfold use in E. destruct (w_ptr w BCombi) eqn:D; [|discriminate]. destruct (nth n (w_heap w) false); [|discriminate]. apply Ret_inj in E. subst w'. split; [congruence|exact B].
  - unfold destroy in E. destruct (nth i (w_objs w) None) as [[k c]|]; [|discriminate]. apply bind_inv in E. destruct E as (w1 & E1 & E2). apply Ret_inj in E2. subst w'.
    assert (Hd : forall p u v, delete p u = Ret v -> w_ptr v = w_ptr u).
    { intros p u v. unfold delete. destruct p as [p|]; [|intros Q; apply Ret_inj in Q; subst; reflexivity]. destruct (nth p (w_heap u) false); [|discriminate]. intros Q. apply Ret_inj in Q. subst. reflexivity. }
    assert (Hp : w_ptr w1 = w_ptr w).
    { destruct k; [apply Hd in E1; exact E1|apply Hd in E1; exact E1|]. apply bind_inv in E1. destruct E1 as (w2 & E1 & E3). apply Hd in E1, E3. congruence. }
    unfold onlycombi. cbn [w_ptr]. rewrite Hp. split; assumption.
Qed.

Lemma combi_first os b : (forall o, In o os -> o = New KSession \/ o = New KCombi \/ o = Use BCombi \/ exists i, o = Destroy i) -> b <> BCombi ->
  srun (New KCombi :: os ++ [Use b]) w_init = UB.
Proof.
  intros H Hb. cbn [srun sstep bind].
  assert (I : onlycombi (new_combi w_init)). { split; [discriminate|]. intros b' Hb'. destruct b'; try reflexivity. congruence. }
  revert I H. generalize (new_combi w_init). induction os as [|o os IH]; intros w I H.
  - cbn [app srun sstep]. unfold use. rewrite (proj2 I b Hb). reflexivity.
  - cbn [app srun]. destruct (sstep o w) as [w'| | |] eqn:E; cbn [bind].
    + apply IH; [|intros o' Ho; apply H; right; exact Ho]. eapply combi_step; [exact I| |exact E]. apply H. left. reflexivity.
    + exfalso. destruct (H o (or_introl eq_refl)) as [->|[->|[->|[i ->]]]]; cbn [sstep] in E; try discriminate.
      * unfold use in E. destruct (w_ptr w BCombi); [destruct (nth n (w_heap w) false)|]; discriminate.
      * unfold destroy in E. destruct (nth i (w_objs w) None) as [[[] c]|]; try discriminate; unfold delete in E.
        -- destruct c as [c|]; [destruct (nth c (w_heap w) false)|]; discriminate.
        -- destruct (w_ptr w BCombi) as [q|]; [destruct (nth q (w_heap w) false)|]; discriminate.
        -- rewrite (proj2 I BSn) in E by discriminate. cbn [bind] in E. rewrite (proj2 I BRep) in E by discriminate. discriminate.
    + exfalso. destruct (H o (or_introl eq_refl)) as [->|[->|[->|[i ->]]]]; cbn [sstep] in E; try discriminate.
      * unfold use in E. destruct (w_ptr w BCombi); [destruct (nth n (w_heap w) false)|]; discriminate.
      * unfold destroy in E. destruct (nth i (w_objs w) None) as [[[] c]|]; try discriminate; unfold delete in E.
        -- destruct c as [c|]; [destruct (nth c (w_heap w) false)|]; discriminate.
        -- destruct (w_ptr w BCombi) as [q|]; [destruct (nth q (w_heap w) false)|]; discriminate.
        -- rewrite (proj2 I BSn) in E by discriminate. cbn [bind] in E. rewrite (proj2 I BRep) in E by discriminate. discriminate.
    + reflexivity.
Qed.

(* ---- CombinatorialClasses and SnClasses objects without a session ---- *)
Definition has (b : bank) (w : world) : Prop := exists p, w_ptr w b = Some p /\ nth p (w_heap w) false = true.
Definition only (c s : Prop) (w : world) : Prop :=
  (c /\ has BCombi w \/ ~ c /\ w_ptr w BCombi = None) /\ (s /\ has BSn w /\ has BRep w \/ ~ s /\ w_ptr w BSn = None /\ w_ptr w BRep = None) /\
  w_ptr w BFft = None /\ w_ptr w BChar = None /\ w_ptr w BCg = None.

Lemma has_obj b k c w : has b w -> has b (add_obj k c w).
Proof. intros (p & E & A). exists p. auto. Qed.
Lemma has_new b b' w : b <> b' -> has b w -> has b (new_bank b' w).
Proof.
  intros D (p & E & A). exists p. cbn. destruct (bank_beq b b') eqn:Q; [apply internal_bank_dec_bl in Q; contradiction|]. split; [exact E|].
  rewrite app_nth1; [exact A|]. destruct (Nat.lt_ge_cases p (length (w_heap w))) as [|H]; [assumption|]. rewrite nth_overflow in A by exact H. discriminate.
Qed.
Lemma has_made b w : has b (new_bank b w).
Proof. exists (length (w_heap w)). cbn. rewrite internal_bank_dec_lb by reflexivity. split; [reflexivity|]. rewrite app_nth2, Nat.sub_diag by lia. reflexivity. Qed.

Lemma only_iff c c' s s' w : (c <-> c') -> (s <-> s') -> only c s w -> only c' s' w.
Proof. unfold only. tauto. Qed.

Lemma only_combi c s w : only c s w -> only True s (new_combi w).
Proof.
  intros (C & S & F). unfold new_combi, is_set. cbn [w_ptr add_obj]. destruct C as [(Hc & H)|(Hc & H)].
  - destruct H as (p & E & A). rewrite E. split; [left; split; auto; exists p; auto|]. split; [|exact F].
    destruct S as [(Hs & S1 & S2)|S]; [left; repeat split; auto using has_obj|right; exact S].
  - rewrite H. split; [left; split; auto; apply has_made|]. split; [|exact F].
    destruct S as [(Hs & S1 & S2)|S]; [left; split; auto; split; apply has_new; try discriminate; apply has_obj; auto|right; exact S].
Qed.
Lemma only_sn c s w : only c s w -> only c True (new_sn w).
Proof.
  intros (C & S & F). unfold new_sn, is_set. cbn [w_ptr add_obj]. destruct S as [(Hs & S1 & S2)|(Hs & S1 & S2)].
  - destruct S1 as (p & E & A). rewrite E. split; [|split; [left; split; auto; split; [exists p; auto|apply has_obj, S2]|exact F]].
    destruct C as [(Hc & H)|C]; [left; auto using has_obj|right; exact C].
  - rewrite S1. split; [|split; [left; split; auto; split; [apply has_new; [discriminate|apply has_made]|apply has_made]|exact F]].
    destruct C as [(Hc & H)|C]; [left; split; auto; apply has_new; [discriminate|]; apply has_new; [discriminate|]; apply has_obj; auto|right; exact C].
Qed.

Lemma only_run ks : Forall (fun k => k = KCombi \/ k = KSn) ks -> forall c s w, only c s w ->
  exists w', srun (map New ks) w = Ret w' /\ only (c \/ In KCombi ks) (s \/ In KSn ks) w'.
Proof.
  induction 1 as [|k ks [-> | ->] H IH]; intros c s w O.
  - exists w. split; [reflexivity|]. apply (only_iff c _ s); cbn; tauto.
  - cbn [map srun sstep bind]. destruct (IH _ _ _ (only_combi c s w O)) as (w' & E & O'). exists w'. split; [exact E|]. revert O'. apply only_iff; cbn; intuition discriminate.
  - cbn [map srun sstep bind]. destruct (IH _ _ _ (only_sn c s w O)) as (w' & E & O'). exists w'. split; [exact E|]. revert O'. apply only_iff; cbn; intuition discriminate.
Qed.

Lemma has_use b w : has b w -> use b w = Ret w.
Proof. intros (p & E & A). unfold use. rewrite E, A. reflexivity. Qed.

Theorem classes_alone ks : Forall (fun k => k = KCombi \/ k = KSn) ks -> exists w, srun (map New ks) w_init = Ret w /\
  (In KCombi ks -> use BCombi w = Ret w) /\ (In KSn ks -> use BSn w = Ret w /\ use BRep w = Ret w) /\
  (~ In KCombi ks -> use BCombi w = UB) /\ (~ In KSn ks -> use BSn w = UB /\ use BRep w = UB) /\ (forall b, In b [BFft; BChar; BCg] -> use b w = UB).
Proof.
  intros H. destruct (only_run ks H False False w_init) as (w & E & C & S & F1 & F2 & F3).
  { split; [right; auto|]. split; [right; cbn; tauto|]. cbn. auto. }
  exists w. split; [exact E|]. clear E.
  assert (N : forall b, w_ptr w b = None -> use b w = UB) by (intros b Q; unfold use; rewrite Q; reflexivity).
  pose proof (has_use BCombi w). pose proof (has_use BSn w). pose proof (has_use BRep w). pose proof (N BCombi). pose proof (N BSn). pose proof (N BRep).
  split; [tauto|]. split; [tauto|]. split; [tauto|]. split; [tauto|]. intros b [<-|[<-|[<-|[]]]]; apply N; assumption.
Qed.

(* one object, made and destroyed, leaves nothing behind *)
Lemma one_object k : k <> KSession -> exists w, srun [New k; Destroy 0] w_init = Ret w /\ alive_count (w_heap w) = 0.
Proof. intros D. destruct k; [congruence|eexists; split; reflexivity|eexists; split; reflexivity]. Qed.
