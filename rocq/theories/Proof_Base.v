(* Lemmas about the execution vocabulary of Model_Base. *)
From Coq Require Import ZArith List Bool Lia ZifyBool ZifyNat FinFun.
From Verif Require Import Model_Base.
Import ListNotations.
Open Scope Z_scope.

Ltac inv H := inversion H; subst; clear H.

(* pure array access *)
Definition znth {A} (l : list A) (i : Z) (d : A) : A := nth (Z.to_nat i) l d.
Definition zupd {A} (l : list A) (i : Z) (x : A) : list A :=
  firstn (Z.to_nat i) l ++ x :: skipn (S (Z.to_nat i)) l.

Lemma zlen_nonneg {A} (l : list A) : 0 <= zlen l.
Proof. unfold zlen; lia. Qed.

Lemma zlen_nil {A} : zlen (@nil A) = 0.
Proof. reflexivity. Qed.

Lemma zlen_cons {A} (x : A) l : zlen (x :: l) = zlen l + 1.
Proof. unfold zlen; simpl length; lia. Qed.

Lemma zlen_app {A} (l l' : list A) : zlen (l ++ l') = zlen l + zlen l'.
Proof. unfold zlen; rewrite app_length; lia. Qed.

Lemma zlen_map {A B} (f : A -> B) l : zlen (map f l) = zlen l.
Proof. unfold zlen; rewrite map_length; lia. Qed.

Lemma zlen_rev {A} (l : list A) : zlen (rev l) = zlen l.
Proof. unfold zlen; rewrite rev_length; lia. Qed.

Lemma zlen_repeat {A} (x : A) n : zlen (repeat x n) = Z.of_nat n.
Proof. unfold zlen; rewrite repeat_length; lia. Qed.

Lemma zlen_0_nil {A} (l : list A) : zlen l = 0 -> l = [].
Proof. destruct l; [reflexivity | unfold zlen; simpl; lia]. Qed.

Lemma zrange_length lo hi : length (zrange lo hi) = Z.to_nat (hi - lo).
Proof. unfold zrange; rewrite map_length, seq_length; reflexivity. Qed.

Lemma zlen_zrange lo hi : zlen (zrange lo hi) = Z.max 0 (hi - lo).
Proof. unfold zlen; rewrite zrange_length; lia. Qed.

Lemma zrange_nil lo hi : hi <= lo -> zrange lo hi = [].
Proof. intros H; unfold zrange; replace (Z.to_nat (hi - lo)) with O by lia; reflexivity. Qed.

Lemma zrange_cons lo hi : lo < hi -> zrange lo hi = lo :: zrange (lo + 1) hi.
Proof.
  intros H; unfold zrange.
  replace (Z.to_nat (hi - lo)) with (S (Z.to_nat (hi - (lo + 1)))) by lia.
  simpl seq; simpl map. f_equal; [lia|].
  rewrite <- seq_shift, map_map. apply map_ext; intros; lia.
Qed.

Lemma zrange_app lo mid hi : lo <= mid <= hi -> zrange lo hi = zrange lo mid ++ zrange mid hi.
Proof.
  intros H; unfold zrange.
  replace (Z.to_nat (hi - lo)) with (Z.to_nat (mid - lo) + Z.to_nat (hi - mid))%nat by lia.
  rewrite seq_app, map_app. f_equal.
  change (0 + Z.to_nat (mid - lo))%nat with (Z.to_nat (mid - lo)).
  rewrite <- (Nat.add_0_r (Z.to_nat (mid - lo))) at 1.
  revert H; generalize (Z.to_nat (hi - mid)); intros k H.
  assert (forall a b k, seq (a + b) k = map (fun x => (a + x)%nat) (seq b k)) as E.
  { clear. intros a b k; revert b; induction k as [|k IH]; intros b; simpl; [reflexivity|].
    f_equal. rewrite <- IH. f_equal. lia. }
  rewrite E, map_map. apply map_ext_in; intros; lia.
Qed.

Lemma zrange_snoc lo hi : lo <= hi -> zrange lo (hi + 1) = zrange lo hi ++ [hi].
Proof.
  intros H. rewrite (zrange_app lo hi (hi + 1)) by lia.
  rewrite (zrange_cons hi) by lia. rewrite (zrange_nil (hi+1)) by lia. reflexivity.
Qed.

Lemma in_zrange lo hi x : In x (zrange lo hi) <-> lo <= x < hi.
Proof.
  unfold zrange; rewrite in_map_iff; split.
  - intros (k & <- & Hk). apply in_seq in Hk. lia.
  - intros H. exists (Z.to_nat (x - lo)). split; [lia|]. apply in_seq. lia.
Qed.

Lemma NoDup_zrange lo hi : NoDup (zrange lo hi).
Proof.
  unfold zrange. apply FinFun.Injective_map_NoDup; [|apply seq_NoDup].
  intros x y E; lia.
Qed.

Lemma nth_zrange lo hi k d : (k < Z.to_nat (hi - lo))%nat -> nth k (zrange lo hi) d = lo + Z.of_nat k.
Proof.
  intros H. unfold zrange.
  rewrite nth_indep with (d' := lo + Z.of_nat 0).
  - rewrite map_nth with (f := fun k => lo + Z.of_nat k). rewrite seq_nth by lia. lia.
  - rewrite map_length, seq_length; lia.
Qed.

Lemma znth_zrange lo hi i d : 0 <= i < hi - lo -> znth (zrange lo hi) i d = lo + i.
Proof. intros H. unfold znth. rewrite nth_zrange by lia. lia. Qed.

(* ---- pure arrays ---- *)

Lemma zlen_zupd {A} (l : list A) i x : 0 <= i < zlen l -> zlen (zupd l i x) = zlen l.
Proof.
  unfold zupd, zlen. intros H. rewrite app_length. cbn [length].
  rewrite firstn_length, skipn_length. lia.
Qed.

Lemma length_zupd {A} (l : list A) i x : 0 <= i < zlen l -> length (zupd l i x) = length l.
Proof. intros H. pose proof (zlen_zupd l i x H). unfold zlen in *. lia. Qed.

Lemma znth_zupd {A} (l : list A) i x j d :
  0 <= i < zlen l -> 0 <= j -> znth (zupd l i x) j d = if j =? i then x else znth l j d.
Proof.
  unfold znth, zupd, zlen. intros H Hj.
  destruct (Z.eqb_spec j i) as [->|Hne].
  - rewrite app_nth2; rewrite firstn_length; [|lia].
    replace (Z.to_nat i - Nat.min (Z.to_nat i) (length l))%nat with O by lia. reflexivity.
  - destruct (Z_lt_dec j i).
    + rewrite app_nth1; [|rewrite firstn_length; lia].
      rewrite <- (firstn_skipn (Z.to_nat i) l) at 2.
      rewrite app_nth1; [reflexivity|rewrite firstn_length; lia].
    + rewrite app_nth2; rewrite firstn_length; [|lia].
      replace (Z.to_nat j - Nat.min (Z.to_nat i) (length l))%nat
        with (S (Z.to_nat j - S (Z.to_nat i)))%nat by lia.
      cbn [nth].
      destruct (Nat.lt_ge_cases (Z.to_nat j) (length l)).
      * rewrite <- (firstn_skipn (S (Z.to_nat i)) l) at 2.
        rewrite app_nth2; rewrite firstn_length; [|lia].
        f_equal; lia.
      * rewrite !nth_overflow; [reflexivity| lia | rewrite skipn_length; lia].
Qed.

Lemma list_ext {A} (l l' : list A) (d : A) :
  zlen l = zlen l' -> (forall i, 0 <= i < zlen l -> znth l i d = znth l' i d) -> l = l'.
Proof.
  intros HL H. apply nth_ext with (d := d) (d' := d); [unfold zlen in HL; lia|].
  intros k Hk. specialize (H (Z.of_nat k)). unfold znth in H. rewrite Nat2Z.id in H.
  apply H. unfold zlen; lia.
Qed.

Lemma znth_indep {A} (l : list A) i d d' : 0 <= i < zlen l -> znth l i d = znth l i d'.
Proof. intros H. unfold znth. apply nth_indep. unfold zlen in H; lia. Qed.

Lemma znth_In {A} (l : list A) i d : 0 <= i < zlen l -> In (znth l i d) l.
Proof. intros H. unfold znth. apply nth_In. unfold zlen in H; lia. Qed.

Lemma In_znth {A} (l : list A) x d : In x l -> exists i, 0 <= i < zlen l /\ znth l i d = x.
Proof.
  intros H. destruct (In_nth l x d H) as (k & Hk & E).
  exists (Z.of_nat k). unfold znth, zlen. rewrite Nat2Z.id. split; [lia | exact E].
Qed.

Lemma znth_map {A B} (f : A -> B) l i d d' :
  0 <= i < zlen l -> znth (map f l) i d' = f (znth l i d).
Proof.
  intros H. unfold znth, zlen in *. rewrite nth_indep with (d' := f d) by (rewrite map_length; lia).
  apply map_nth.
Qed.

Lemma znth_repeat {A} (x d : A) n i : 0 <= i < Z.of_nat n -> znth (repeat x n) i d = x.
Proof.
  intros H. unfold znth. rewrite nth_indep with (d' := x) by (rewrite repeat_length; lia).
  apply nth_repeat.
Qed.

Lemma znth_app {A} (l l' : list A) i d : 0 <= i ->
  znth (l ++ l') i d = if i <? zlen l then znth l i d else znth l' (i - zlen l) d.
Proof.
  intros H. unfold znth, zlen. destruct (Z.ltb_spec i (Z.of_nat (length l))).
  - apply app_nth1. lia.
  - rewrite app_nth2 by lia. f_equal. lia.
Qed.

Lemma znth_cons {A} (x : A) l i d : 0 <= i ->
  znth (x :: l) i d = if i =? 0 then x else znth l (i - 1) d.
Proof.
  intros H. unfold znth. destruct (Z.eqb_spec i 0) as [->|E]; [reflexivity|].
  replace (Z.to_nat i) with (S (Z.to_nat (i - 1))) by lia. reflexivity.
Qed.

Lemma NoDup_znth {A} (l : list A) d i j : NoDup l -> 0 <= i < zlen l -> 0 <= j < zlen l ->
  znth l i d = znth l j d -> i = j.
Proof.
  intros HN Hi Hj E. unfold znth, zlen in *.
  assert (Z.to_nat i = Z.to_nat j); [|lia].
  apply (proj1 (NoDup_nth l d) HN); [lia|lia|exact E].
Qed.

Lemma NoDup_znth_intro {A} (l : list A) d :
  (forall i j, 0 <= i < zlen l -> 0 <= j < zlen l -> znth l i d = znth l j d -> i = j) -> NoDup l.
Proof.
  intros H. apply (NoDup_nth l d). intros i j Hi Hj E.
  specialize (H (Z.of_nat i) (Z.of_nat j)). unfold znth, zlen in H. rewrite !Nat2Z.id in H.
  assert (Z.of_nat i = Z.of_nat j); [|lia]. apply H; [lia|lia|exact E].
Qed.

Lemma map_znth_zrange {A} (l : list A) d : map (fun i => znth l i d) (zrange 0 (zlen l)) = l.
Proof.
  apply list_ext with (d := d).
  - rewrite zlen_map, zlen_zrange. unfold zlen; lia.
  - intros i Hi. rewrite zlen_map, zlen_zrange in Hi.
    rewrite znth_map with (d := 0); [|rewrite zlen_zrange; lia].
    rewrite znth_zrange by lia. f_equal; lia.
Qed.

(* ---- rd / wr ---- *)

Lemma rd_ok {A} (l : list A) i d : 0 <= i < zlen l -> rd l i = Ret (znth l i d).
Proof.
  unfold rd, znth, zlen. intros H. destruct (Z.leb_spec 0 i); [|lia].
  rewrite (nth_error_nth' l d) by lia. reflexivity.
Qed.

Lemma rd_out {A} (l : list A) i : ~ 0 <= i < zlen l -> rd l i = UB.
Proof.
  unfold rd, zlen. intros H. destruct (Z.leb_spec 0 i); [|reflexivity].
  destruct (nth_error l (Z.to_nat i)) eqn:E; [|reflexivity].
  assert (nth_error l (Z.to_nat i) <> None) as N by congruence.
  apply nth_error_Some in N. lia.
Qed.

Lemma rd_inv {A} (l : list A) i x : rd l i = Ret x -> 0 <= i < zlen l /\ forall d, znth l i d = x.
Proof.
  intros H. destruct (Z_le_dec 0 i); [destruct (Z_lt_dec i (zlen l))|].
  - split; [lia|]. intros d. rewrite (rd_ok l i d) in H by lia. congruence.
  - rewrite rd_out in H by lia. discriminate.
  - rewrite rd_out in H by lia. discriminate.
Qed.

Lemma wr_ok {A} (l : list A) i x : 0 <= i < zlen l -> wr l i x = Ret (zupd l i x).
Proof. unfold wr, zupd. intros H. destruct (Z.leb_spec 0 i), (Z.ltb_spec i (zlen l)); simpl; try lia. reflexivity. Qed.

Lemma wr_out {A} (l : list A) i x : ~ 0 <= i < zlen l -> wr l i x = UB.
Proof. unfold wr. intros H. destruct (Z.leb_spec 0 i), (Z.ltb_spec i (zlen l)); simpl; try lia; reflexivity. Qed.

Lemma vat_ok {A} (l : list A) i d : 0 <= i < zlen l -> vat l i = Ret (znth l i d).
Proof.
  unfold vat, znth, zlen. intros H. destruct (Z.leb_spec 0 i); [|lia].
  rewrite (nth_error_nth' l d) by lia. reflexivity.
Qed.

Lemma vat_out {A} (l : list A) i : ~ 0 <= i < zlen l -> vat l i = Throw.
Proof.
  unfold vat, zlen. intros H. destruct (Z.leb_spec 0 i); [|reflexivity].
  destruct (nth_error l (Z.to_nat i)) eqn:E; [|reflexivity].
  assert (nth_error l (Z.to_nat i) <> None) as N by congruence.
  apply nth_error_Some in N. lia.
Qed.

Lemma vat_set_ok {A} (l : list A) i x : 0 <= i < zlen l -> vat_set l i x = Ret (zupd l i x).
Proof. unfold vat_set, zupd. intros H. destruct (Z.leb_spec 0 i), (Z.ltb_spec i (zlen l)); simpl; try lia. reflexivity. Qed.

Lemma alloc_ok n : 0 <= n -> alloc n = Ret (repeat None (Z.to_nat n)).
Proof. intros H. unfold alloc. destruct (Z.ltb_spec n 0); [lia|reflexivity]. Qed.

Lemma freeze_map {A} (l : list A) : freeze (map Some l) = Ret l.
Proof. induction l as [|x l IH]; simpl; [reflexivity|]. rewrite IH. reflexivity. Qed.

Lemma freeze_ok {A} (b : list (option A)) (l : list A) (d : A) :
  zlen b = zlen l -> (forall i, 0 <= i < zlen l -> znth b i None = Some (znth l i d)) ->
  freeze b = Ret l.
Proof.
  intros HL H. replace b with (map Some l); [apply freeze_map|].
  apply list_ext with (d := None); rewrite zlen_map; [congruence|].
  intros i Hi. rewrite H by lia. apply znth_map. lia.
Qed.

(* build a list from its entries *)
Definition ztab {A} (n : Z) (f : Z -> A) : list A := map f (zrange 0 n).

Lemma zlen_ztab {A} n (f : Z -> A) : 0 <= n -> zlen (ztab n f) = n.
Proof. intros H. unfold ztab. rewrite zlen_map, zlen_zrange. lia. Qed.

Lemma znth_ztab {A} n (f : Z -> A) i d : 0 <= i < n -> znth (ztab n f) i d = f i.
Proof.
  intros H. unfold ztab. rewrite znth_map with (d := 0) by (rewrite zlen_zrange; lia).
  rewrite znth_zrange by lia. f_equal; lia.
Qed.

Lemma freeze_fill {A} (b : list (option A)) (f : Z -> A) (d : A) n :
  zlen b = n -> (forall i, 0 <= i < n -> znth b i None = Some (f i)) ->
  freeze b = Ret (ztab n f).
Proof.
  intros HL H. pose proof (zlen_nonneg b).
  apply freeze_ok with (d := d); rewrite zlen_ztab by lia; [lia|].
  intros i Hi. rewrite H, znth_ztab by lia. reflexivity.
Qed.

(* ---- loops ---- *)

Lemma foldM_app {S I} (body : I -> S -> outcome S) l l' s :
  foldM body (l ++ l') s = (s' <- foldM body l s ;; foldM body l' s').
Proof.
  revert s; induction l as [|i l IH]; intros s; simpl; [reflexivity|].
  destruct (body i s); simpl; auto.
Qed.

Lemma zfor_nil {S} lo hi (body : Z -> S -> outcome S) s : hi <= lo -> zfor lo hi body s = Ret s.
Proof. intros H. unfold zfor. rewrite zrange_nil by lia. reflexivity. Qed.

Lemma zfor_cons {S} lo hi (body : Z -> S -> outcome S) s : lo < hi ->
  zfor lo hi body s = (s' <- body lo s ;; zfor (lo + 1) hi body s').
Proof. intros H. unfold zfor. rewrite zrange_cons by lia. reflexivity. Qed.

Lemma zfor_snoc {S} lo hi (body : Z -> S -> outcome S) s : lo <= hi ->
  zfor lo (hi + 1) body s = (s' <- zfor lo hi body s ;; body hi s').
Proof.
  intros H. unfold zfor. rewrite zrange_snoc by lia. rewrite foldM_app.
  destruct (foldM body (zrange lo hi) s); simpl; auto. destruct (body hi a); reflexivity.
Qed.

Lemma zford_nil {S} lo hi (body : Z -> S -> outcome S) s : hi < lo -> zford hi lo body s = Ret s.
Proof. intros H. unfold zford. rewrite zrange_nil by lia. reflexivity. Qed.

Lemma zford_cons {S} lo hi (body : Z -> S -> outcome S) s : lo <= hi ->
  zford hi lo body s = (s' <- body hi s ;; zford (hi - 1) lo body s').
Proof.
  intros H. unfold zford. rewrite zrange_snoc by lia. rewrite rev_app_distr. simpl.
  replace (hi - 1 + 1) with hi by lia. reflexivity.
Qed.

(* invariant rule for an ascending loop *)
Lemma zfor_inv {S} (P : Z -> S -> Prop) lo hi (body : Z -> S -> outcome S) s :
  lo <= hi -> P lo s ->
  (forall i s, lo <= i < hi -> P i s -> exists s', body i s = Ret s' /\ P (i + 1) s') ->
  exists s', zfor lo hi body s = Ret s' /\ P hi s'.
Proof.
  intros Hle HP Hstep.
  remember (Z.to_nat (hi - lo)) as k eqn:Ek.
  revert lo s Hle HP Hstep Ek; induction k as [|k IH]; intros lo s Hle HP Hstep Ek.
  - assert (hi = lo) by lia. subst hi. exists s. rewrite zfor_nil by lia. auto.
  - rewrite zfor_cons by lia.
    destruct (Hstep lo s) as (s1 & E1 & P1); [lia|assumption|].
    rewrite E1. simpl. apply IH; try lia; auto.
    intros i s0 Hi. apply Hstep; lia.
Qed.

(* invariant rule for a descending loop for(i=hi; i>=lo; i--); P i s : state before the round i *)
Lemma zford_inv {S} (P : Z -> S -> Prop) lo hi (body : Z -> S -> outcome S) s :
  lo <= hi + 1 -> P hi s ->
  (forall i s, lo <= i <= hi -> P i s -> exists s', body i s = Ret s' /\ P (i - 1) s') ->
  exists s', zford hi lo body s = Ret s' /\ P (lo - 1) s'.
Proof.
  intros Hle HP Hstep.
  remember (Z.to_nat (hi + 1 - lo)) as k eqn:Ek.
  revert hi s Hle HP Hstep Ek; induction k as [|k IH]; intros hi s Hle HP Hstep Ek.
  - assert (hi = lo - 1) by lia. subst hi. exists s. rewrite zford_nil by lia. auto.
  - rewrite zford_cons by lia.
    destruct (Hstep hi s) as (s1 & E1 & P1); [lia|assumption|].
    rewrite E1. simpl. apply IH; try lia; auto.
    intros i s0 Hi. apply Hstep; lia.
Qed.

(* loops with early exit *)
Lemma zforb_nil {S R} lo hi (body : Z -> S -> outcome (S + R)) s : hi <= lo -> zforb lo hi body s = Ret (inl s).
Proof. intros H. unfold zforb. rewrite zrange_nil by lia. reflexivity. Qed.

Lemma zforb_cons {S R} lo hi (body : Z -> S -> outcome (S + R)) s : lo < hi ->
  zforb lo hi body s =
  (q <- body lo s ;; match q with inl s' => zforb (lo + 1) hi body s' | inr r => Ret (inr r) end).
Proof. intros H. unfold zforb. rewrite zrange_cons by lia. reflexivity. Qed.

Lemma zforb_inv {S R} (P : Z -> S -> Prop) (Q : R -> Prop) lo hi (body : Z -> S -> outcome (S + R)) s :
  lo <= hi -> P lo s ->
  (forall i s, lo <= i < hi -> P i s ->
     (exists s', body i s = Ret (inl s') /\ P (i + 1) s') \/ (exists r, body i s = Ret (inr r) /\ Q r)) ->
  (exists s', zforb lo hi body s = Ret (inl s') /\ P hi s') \/
  (exists r, zforb lo hi body s = Ret (inr r) /\ Q r).
Proof.
  intros Hle HP Hstep.
  remember (Z.to_nat (hi - lo)) as k eqn:Ek.
  revert lo s Hle HP Hstep Ek; induction k as [|k IH]; intros lo s Hle HP Hstep Ek.
  - assert (hi = lo) by lia. subst hi. left. exists s. rewrite zforb_nil by lia. auto.
  - rewrite zforb_cons by lia.
    destruct (Hstep lo s) as [(s1 & E1 & P1)|(r & E1 & Q1)]; [lia|assumption| |].
    + rewrite E1. simpl. apply IH; try lia; auto.
      intros i s0 Hi. apply Hstep; lia.
    + rewrite E1. simpl. right. eauto.
Qed.

Lemma foldM_ext {S I} (f g : I -> S -> outcome S) l s :
  (forall i s, In i l -> f i s = g i s) -> foldM f l s = foldM g l s.
Proof.
  revert s; induction l as [|i l IH]; intros s H; simpl; [reflexivity|].
  rewrite H by (left; reflexivity). destruct (g i s); simpl; auto.
  apply IH. intros; apply H; right; assumption.
Qed.

Lemma bind_Ret {A} (m : outcome A) : (x <- m ;; Ret x) = m.
Proof. destruct m; reflexivity. Qed.

Lemma bind_assoc {A B C} (m : outcome A) (f : A -> outcome B) (g : B -> outcome C) :
  bind (bind m f) g = bind m (fun x => bind (f x) g).
Proof. destruct m; reflexivity. Qed.

Lemma bind_inv {A B} (m : outcome A) (f : A -> outcome B) b :
  bind m f = Ret b -> exists a, m = Ret a /\ f a = Ret b.
Proof. destruct m; simpl; intros H; try discriminate. eauto. Qed.

Lemma Ret_inj {A} (a b : A) : Ret a = Ret b -> a = b.
Proof. intros H. injection H. auto. Qed.
