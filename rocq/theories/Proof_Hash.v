(* The hash tables of the library answer as maps do. *)
From Coq Require Import ZArith List Bool Lia ZifyBool ZifyNat Permutation Sorted.
From Verif Require Import Model_Base Model_Part Model_Hash Spec_Hash Spec_Part.
From Verif Require Import Proof_Base Proof_Part Proof_PartProps.
Import ListNotations.
Open Scope Z_scope.

Lemma fop_perm {A} (R : A -> A -> Prop) l l' : (forall x y, R x y -> R y x) -> Permutation l l' -> ForallOrdPairs R l -> ForallOrdPairs R l'.
Proof.
  intros S P. induction P as [|x l l' P IH|x y l|l l' l'' P IH P' IH']; intros H; auto.
  - inversion H; subst. constructor; auto. eapply Permutation_Forall; eauto.
  - inversion H as [|? ? F H']; subst. inversion H' as [|? ? F' H'']; subst. inversion F; subst. constructor; [constructor; auto|]. constructor; auto.
Qed.
Lemma fop_app_l {A} (R : A -> A -> Prop) l l' : ForallOrdPairs R (l ++ l') -> ForallOrdPairs R l.
Proof. induction l as [|x l IH]; intros H; [constructor|]. cbn in H. inversion H; subst. constructor; auto. apply Forall_app in H2. tauto. Qed.

Section Table.
  Context {K V : Type} (hash : K -> Z) (eq : K -> K -> bool) (cached : bool) (ok : K -> Prop) (same : K -> K -> Prop).
  Hypothesis Heq : forall a b, ok a -> ok b -> (eq a b = true <-> same a b).
  Hypothesis Hsym : forall a b, same a b -> same b a.
  Hypothesis Htr : forall a b c, same a b -> same b c -> same a c.
  Hypothesis Hrefl : forall a, same a a.
  Hypothesis Hh : forall a b, ok a -> ok b -> same a b -> hash a = hash b.
  Notation entry := (Z * K * V)%type.
  Notation key e := (snd (fst e)).
  Let differ (e e' : entry) : Prop := ~ same (key e) (key e').
  Let differ_sym e e' : differ e e' -> differ e' e. Proof. unfold differ. intros H X. auto. Qed.
  Let buck := bucket.

  Definition good (e : entry) : Prop := ok (key e) /\ fst (fst e) = hash (key e).
  Definition inv (t : list (list entry)) : Prop :=
    (1 <= length t)%nat /\ (forall i e, In e (nth i t []) -> good e /\ bucket (length t) (hash (key e)) = i) /\ ForallOrdPairs differ (concat t).

  Lemma bucket_lt nb h : (1 <= nb)%nat -> (bucket nb h < nb)%nat.
  Proof. intros H. unfold bucket. pose proof (Z.mod_pos_bound h (Z.of_nat nb) ltac:(lia)). lia. Qed.

  Lemma length_at (t : list (list entry)) i f : length (at_bucket t i f) = length t.
  Proof. revert i. induction t as [|b t IH]; intros [|i]; cbn; auto. Qed.
  Lemma nth_at (t : list (list entry)) i f j : (i < length t)%nat -> nth j (at_bucket t i f) [] = if Nat.eqb j i then f (nth i t []) else nth j t [].
  Proof.
    revert i j. induction t as [|b t IH]; intros i j H; [cbn in H; lia|]. destruct i as [|i]; destruct j as [|j]; cbn; auto. rewrite IH by (cbn in H; lia). reflexivity.
  Qed.
  Lemma concat_at (t : list (list entry)) i : (i < length t)%nat -> exists c, Permutation (concat t) (nth i t [] ++ c) /\ forall f, Permutation (concat (at_bucket t i f)) (f (nth i t []) ++ c).
  Proof.
    revert i. induction t as [|b t IH]; intros i H; [cbn in H; lia|]. destruct i as [|i]; cbn.
    - exists (concat t). split; auto.
    - destruct (IH i) as (c & P & Q); [cbn in H; lia|]. exists (b ++ c). split.
      + rewrite P. rewrite !app_assoc. apply Permutation_app_tail, Permutation_app_comm.
      + intros f. rewrite (Q f). rewrite !app_assoc. apply Permutation_app_tail, Permutation_app_comm.
  Qed.
  Lemma in_bucket (t : list (list entry)) e : In e (concat t) <-> exists i, In e (nth i t []).
  Proof.
    induction t as [|b t IH]; cbn; [split; [tauto|intros (i & H); destruct i; auto]|]. rewrite in_app_iff, IH. split.
    - intros [H|(i & H)]; [exists 0%nat; auto|exists (S i); auto].
    - intros (i & H). destruct i; auto. right. eauto.
  Qed.

  Lemma hit_iff k e : ok k -> good e -> (hit hash eq cached k e = true <-> same (key e) k).
  Proof.
    intros O (O' & E). unfold hit. rewrite andb_true_iff, Heq by auto. split; [tauto|]. intros S. split; auto. destruct cached; auto. rewrite E. apply Z.eqb_eq. auto.
  Qed.

  Definition has (t : list (list entry)) (k : K) (v : V) : Prop := exists e, In e (concat t) /\ same (key e) k /\ snd e = v.

  Lemma fop_unique (l : list entry) e e' : ForallOrdPairs differ l -> In e l -> In e' l -> same (key e) (key e') -> e = e'.
  Proof.
    induction 1 as [|x l F H IH]; intros I I' S; [destruct I|]. rewrite Forall_forall in F. destruct I as [->|I], I' as [->|I']; auto.
    - exfalso. exact (F _ I' S).
    - exfalso. exact (F _ I (Hsym _ _ S)).
  Qed.

  Lemma find_iff t k v : inv t -> ok k -> (ut_find hash eq cached t k = Some v <-> has t k v).
  Proof.
    intros (L & G & U) O. unfold ut_find. set (i := bucket (length t) (hash k)). split.
    - destruct (find _ _) as [e|] eqn:F; [|discriminate]. intros E. injection E as <-. apply find_some in F as (I & H). destruct (G _ _ I) as (Ge & _). apply hit_iff in H; auto. exists e. split; auto. apply in_bucket. eauto.
    - intros (e & I & S & E). apply in_bucket in I as (j & I). destruct (G _ _ I) as (Ge & B). assert (j = i) as -> by (rewrite <- B; unfold i; rewrite (Hh _ _ (proj1 Ge) O S); reflexivity).
      destruct (find _ _) as [e'|] eqn:F.
      + apply find_some in F as (I' & H). destruct (G _ _ I') as (Ge' & _). apply hit_iff in H; auto. assert (e' = e) as ->; [|congruence]. apply (fop_unique (concat t)); auto; try (apply in_bucket; eauto). eauto.
      + pose proof (find_none _ _ F e I) as H. apply hit_iff in S; auto. congruence.
  Qed.
  Lemma find_none_iff t k : inv t -> ok k -> (ut_find hash eq cached t k = None <-> forall v, ~ has t k v).
  Proof.
    intros I O. split.
    - intros F v H. apply find_iff in H; auto. congruence.
    - intros H. destruct (ut_find hash eq cached t k) as [v|] eqn:F; auto. apply find_iff in F; auto. destruct (H v F).
  Qed.

  Lemma inv_empty nb : (1 <= nb)%nat -> inv (repeat [] nb).
  Proof.
    intros H. assert (forall i, nth i (repeat (@nil entry) nb) [] = []) as N. { intros i. clear H. revert i. induction nb as [|nb IH]; intros [|i]; cbn; auto. }
    split; [rewrite repeat_length; auto|]. split; [intros i e I; rewrite N in I; destruct I|]. assert (concat (repeat (@nil entry) nb) = []) as ->; [|constructor]. clear N H. induction nb; cbn; auto.
  Qed.

  (* what a put does to a bucket *)
  Lemma put_cases b k v : Forall good b -> ok k ->
    (Forall (fun e => ~ same (key e) k) b /\ put_in hash eq cached b k v = b ++ [(hash k, k, v)]) \/
    (exists b1 e b2, b = b1 ++ e :: b2 /\ same (key e) k /\ put_in hash eq cached b k v = b1 ++ (fst e, v) :: b2).
  Proof.
    intros F O. induction F as [|e b G F IH]; [left; split; auto|]. cbn. destruct (hit hash eq cached k e) eqn:H.
    - apply hit_iff in H; auto. right. exists [], e, b. auto.
    - assert (~ same (key e) k) as N. { intros S. apply (hit_iff k e O G) in S. congruence. } destruct IH as [(A & ->)|(b1 & e' & b2 & -> & S & ->)].
      + left. split; auto.
      + right. exists (e :: b1), e', b2. auto.
  Qed.

  Lemma put_inv t k v : inv t -> ok k -> inv (ut_put hash eq cached t k v) /\
    forall k2 v2, has (ut_put hash eq cached t k v) k2 v2 <-> (same k k2 /\ v2 = v) \/ (~ same k k2 /\ has t k2 v2).
  Proof.
    intros (L & G & U) O. unfold ut_put. set (i := bucket (length t) (hash k)). assert (i < length t)%nat as Hi by (apply bucket_lt; auto). set (b := nth i t []).
    assert (Forall good b) as Gb. { apply Forall_forall. intros e I. destruct (G _ _ I). auto. }
    destruct (concat_at t i Hi) as (c & P & Q). specialize (Q (fun b => put_in hash eq cached b k v)). fold b in P, Q. cbv beta in Q.
    pose proof (fop_perm _ _ _ differ_sym P U) as Ub.
    assert (forall e, In e (concat t) <-> In e (b ++ c)) as IP. { intros e. split; apply Permutation_in; auto. apply Permutation_sym; auto. }
    assert (forall e, In e (concat (at_bucket t i (fun b => put_in hash eq cached b k v))) <-> In e (put_in hash eq cached b k v ++ c)) as IQ. { intros e. split; apply Permutation_in; auto. apply Permutation_sym; auto. }
    assert (forall e, In e (concat t) -> good e /\ (same (key e) k -> In e b)) as GG. { intros e I. apply in_bucket in I as (j & I). destruct (G _ _ I) as (Ge & B). split; auto. intros S. unfold b. assert (j = i) as <-; auto. rewrite <- B. unfold i. rewrite (Hh _ _ (proj1 Ge) O S). reflexivity. }
    assert (forall (H : forall e, In e (put_in hash eq cached b k v) -> good e /\ bucket (length t) (hash (key e)) = i) (F : ForallOrdPairs differ (put_in hash eq cached b k v ++ c)), inv (at_bucket t i (fun b => put_in hash eq cached b k v))) as MK.
    { intros H F. split; [rewrite length_at; auto|]. split. 2:{ eapply fop_perm; [exact differ_sym|apply Permutation_sym; exact Q|exact F]. }
      intros j e I. rewrite nth_at in I by auto. rewrite length_at. destruct (Nat.eqb j i) eqn:J; [apply Nat.eqb_eq in J; subst j|]; auto. }
    destruct (put_cases b k v Gb O) as [(N & E)|(b1 & e & b2 & Eb & S & E)]; rewrite E in *.
    - assert (forall e, In e (concat t) -> ~ same (key e) k) as NO. { intros e I S. destruct (GG e I) as (_ & B). rewrite Forall_forall in N. exact (N e (B S) S). }
      split.
      + apply MK.
        * intros e I. apply in_app_iff in I as [I|[<-|[]]]; [apply G; auto|]. cbn. split; [split; auto|reflexivity].
        * apply (fop_perm _ ((hash k, k, v) :: b ++ c)); [exact differ_sym| |]. { rewrite <- app_assoc. cbn. apply Permutation_middle. }
          constructor; auto. apply Forall_forall. intros e I. apply IP in I. unfold differ. cbn. intros S. exact (NO e I (Hsym _ _ S)).
      + intros k2 v2. split.
        * intros (e & I & S & V2). apply IQ in I. apply in_app_iff in I as [I|I]; [apply in_app_iff in I as [I|[<-|[]]]|].
          -- right. assert (In e (concat t)) as I' by (apply IP, in_app_iff; auto). split; [|exists e; auto]. intros X. apply (NO e I'). eauto.
          -- left. cbn in *. auto.
          -- right. assert (In e (concat t)) as I' by (apply IP, in_app_iff; auto). split; [|exists e; auto]. intros X. apply (NO e I'). eauto.
        * intros [(S & ->)|(S & e & I & X & V2)].
          -- exists (hash k, k, v). split; [apply IQ; rewrite !in_app_iff; cbn; auto|]. cbn. auto.
          -- exists e. split; [|auto]. apply IQ. apply IP in I. rewrite !in_app_iff in *. tauto.
    - rewrite Eb in *. pose proof (fop_app_l _ _ _ Ub) as Ub'.
      assert (In e (b1 ++ e :: b2)) as Ie by (apply in_app_iff; right; left; auto).
      assert (forall x, In x (b1 ++ b2 ++ c) -> ~ same (key x) (key e)) as NO.
      { assert (ForallOrdPairs differ (e :: b1 ++ b2 ++ c)) as Z. { eapply fop_perm; [exact differ_sym| |exact Ub]. rewrite <- app_assoc. cbn. apply Permutation_sym, Permutation_middle. }
        inversion Z as [|? ? F _]; subst. rewrite Forall_forall in F. intros x I S'. exact (F x I (Hsym _ _ S')). }
      split.
      + apply MK.
        * intros x I. apply in_app_iff in I as [I|[<-|I]]; [apply G; rewrite <- Eb in *; fold b; rewrite Eb; apply in_app_iff; auto| |apply G; fold b; rewrite Eb; apply in_app_iff; cbn; auto].
          assert (In e b) as Ie' by (rewrite Eb; auto). destruct (G i e Ie') as ((A & B) & C). unfold good. cbn. auto.
        * clear - Ub. rewrite <- app_assoc in *. cbn in *. induction b1 as [|y b1 IH]; cbn in *; inversion Ub; subst; constructor; auto. apply Forall_forall. rewrite Forall_forall in H1. intros z I. apply in_app_iff in I as [I|[<-|I]]; [apply H1, in_app_iff; auto| |apply H1, in_app_iff; cbn; auto].
          specialize (H1 e). unfold differ in *. cbn. apply H1. apply in_app_iff. cbn. auto.
      + intros k2 v2. split.
        * intros (x & I & S' & V2). apply IQ in I. assert (x = (fst e, v) \/ In x (b1 ++ b2 ++ c)) as [->|I'] by (rewrite !in_app_iff in *; cbn in I; rewrite ?in_app_iff in I; intuition auto).
          -- left. cbn in *. split; auto. eauto.
          -- right. split; [intros X; apply (NO x I'); eauto|]. exists x. split; auto. apply IP. rewrite !in_app_iff in *. cbn. tauto.
        * intros [(S' & ->)|(S' & x & I & X & V2)].
          -- exists (fst e, v). split; [apply IQ; rewrite !in_app_iff; cbn; auto|]. cbn. eauto.
          -- exists x. split; [|auto]. apply IQ. apply IP in I. assert (x <> e) by (intros ->; apply S'; eauto). rewrite !in_app_iff in *. cbn in *. intuition congruence.
  Qed.

  Lemma rehash_inv nb t : (1 <= nb)%nat -> inv t -> inv (ut_rehash hash cached nb t) /\ forall k v, has (ut_rehash hash cached nb t) k v <-> has t k v.
  Proof.
    intros H (L & G & U). unfold ut_rehash. set (f := fun t e => at_bucket t _ _).
    assert (forall l (s : list (list entry)), length s = nb -> Forall good l -> (forall i e, In e (nth i s []) -> good e /\ bucket nb (hash (key e)) = i) ->
      length (fold_left f l s) = nb /\ (forall i e, In e (nth i (fold_left f l s) []) -> good e /\ bucket nb (hash (key e)) = i) /\ Permutation (concat (fold_left f l s)) (l ++ concat s)) as K0.
    { induction l as [|e l IH]; intros s Ls Gl Gs; [cbn; auto|]. inversion Gl as [|? ? Ge Gl']; subst. cbn [fold_left]. set (h := if cached then fst (fst e) else hash (key e)). assert (h = hash (key e)) as Eh by (unfold h; destruct cached; auto; apply Ge).
      assert (bucket (length s) h < length s)%nat as B by (apply bucket_lt; auto). destruct (IH (f s e)) as (A & B' & C); auto.
      - unfold f. apply length_at.
      - unfold f. fold h. intros i x I. rewrite nth_at in I by auto. destruct (Nat.eqb i (bucket (length s) h)) eqn:J; [apply Nat.eqb_eq in J; subst i|auto]. apply in_app_iff in I as [I|[<-|[]]]; auto. rewrite Eh. auto.
      - split; auto. split; auto. rewrite C. unfold f. fold h. destruct (concat_at s _ B) as (c & P & Q). rewrite (Q (fun b => b ++ [e])). cbn. rewrite P. rewrite <- app_assoc. cbn. rewrite <- Permutation_middle. apply Permutation_sym. cbn. rewrite <- Permutation_middle. auto. }
    destruct (inv_empty nb H) as (_ & Gn & _). assert (concat (repeat (@nil entry) nb) = []) as Ec by (clear; induction nb; cbn; auto).
    destruct (K0 (concat t) (repeat [] nb)) as (A & B & C).
    - apply repeat_length.
    - apply Forall_forall. intros e I. apply in_bucket in I as (i & I). apply G in I. tauto.
    - intros i e I. rewrite repeat_length in Gn. auto.
    - rewrite Ec, app_nil_r in C. split.
      + split; [lia|]. split; [rewrite A; auto|]. eapply fop_perm; [exact differ_sym|apply Permutation_sym; exact C|exact U].
      + intros k v. unfold has. split; intros (e & I & X); exists e; split; auto; [eapply Permutation_in; eauto|eapply Permutation_in; [apply Permutation_sym|]; eauto].
  Qed.

  Theorem run_map nb (h : list (mop K V)) : (1 <= nb)%nat -> keys_ok ok h -> inv (ut_run hash eq cached nb h) /\ forall k v, has (ut_run hash eq cached nb h) k v <-> last_put same h k v.
  Proof.
    intros H. unfold ut_run. induction h as [|o h IH] using rev_ind; intros O.
    - split; [apply inv_empty; auto|]. intros k v. split.
      + intros (e & I & _). destruct (inv_empty nb H) as (_ & Gn & _). apply in_bucket in I as (i & I). exfalso. revert I. cbn. generalize i. clear. induction nb as [|nb IH]; intros [|i]; cbn; auto; apply IH.
      + intros (h1 & k1 & h2 & E & _). destruct h1; discriminate E.
    - rewrite fold_left_app. cbn [fold_left]. destruct IH as (I & W). { destruct O as (O1 & O2). split; intros; [eapply O1|eapply O2]; apply in_app_iff; eauto. }
      destruct o as [k0 v0|nb']; cbn [ut_step].
      + destruct (put_inv _ k0 v0 I) as (I' & W'). { eapply (proj1 O). apply in_app_iff. right. left. reflexivity. }
        split; auto. intros k v. rewrite W'. rewrite W. split.
        * intros [(S & ->)|(S & h1 & k1 & h2 & -> & S' & N)].
          -- exists h, k0, []. split; auto.
          -- exists h1, k1, (h2 ++ [MPut k0 v0]). split; [rewrite <- app_assoc; reflexivity|]. split; auto. intros k2 w Q. apply in_app_iff in Q as [Q|[Q|[]]]; eauto. injection Q as <- <-. auto.
        * intros (h1 & k1 & h2 & E & S & N). destruct h2 as [|o h2] using rev_ind.
          -- apply app_inj_tail in E as (-> & E). injection E as <- <-. auto.
          -- clear IHh2. change (MPut k1 v :: h2 ++ [o]) with ((MPut k1 v :: h2) ++ [o]) in E. rewrite app_assoc in E. apply app_inj_tail in E as (-> & <-). right. split; [apply (N k0 v0); apply in_app_iff; right; left; auto|].
             exists h1, k1, h2. split; auto. split; auto. intros k2 w Q. apply (N k2 w). apply in_app_iff. auto.
      + destruct (rehash_inv nb' _ ltac:(apply (proj2 O); apply in_app_iff; right; left; auto) I) as (I' & W'). split; auto. intros k v. rewrite W', W. split.
        * intros (h1 & k1 & h2 & -> & S' & N). exists h1, k1, (h2 ++ [MRehash nb']). split; [rewrite <- app_assoc; reflexivity|]. split; auto. intros k2 w Q. apply in_app_iff in Q as [Q|[Q|[]]]; eauto. discriminate Q.
        * intros (h1 & k1 & h2 & E & S & N). destruct h2 as [|o h2] using rev_ind.
          -- apply app_inj_tail in E as (_ & E). discriminate E.
          -- clear IHh2. change (MPut k1 v :: h2 ++ [o]) with ((MPut k1 v :: h2) ++ [o]) in E. rewrite app_assoc in E. apply app_inj_tail in E as (-> & _).
             exists h1, k1, h2. split; auto. split; auto. intros k2 w Q. apply (N k2 w). apply in_app_iff. auto.
  Qed.

  Lemma put_last (h : list (mop K V)) k k1 v1 : keys_ok ok h -> ok k -> In (MPut k1 v1) h -> same k1 k -> exists v, last_put same h k v.
  Proof.
    intros O Ok. induction h as [|o h IH] using rev_ind; intros I S; [destruct I|].
    assert (keys_ok ok h) as O'. { destruct O as (O1 & O2). split; intros; [eapply O1|eapply O2]; apply in_app_iff; eauto. }
    assert ((exists v2 k2, o = MPut k2 v2 /\ same k2 k) \/ (forall k2 v2, o = MPut k2 v2 -> ~ same k2 k)) as [(v2 & k2 & -> & S2)|N].
    { destruct o as [k2 v2|nb]; [|right; intros; discriminate]. assert (ok k2) as O2. { eapply (proj1 O). apply in_app_iff. right. left. reflexivity. }
      destruct (eq k2 k) eqn:E; [left; exists v2, k2; split; auto; apply Heq; auto|]. right. intros k3 v3 Q S3. injection Q as -> ->. apply Heq in S3; auto. congruence. }
    - exists v2, h, k2, []. split; auto.
    - apply in_app_iff in I as [I|[->|[]]]; [|destruct (N k1 v1 eq_refl S)]. destruct (IH O' I S) as (v & h1 & k0 & h2 & -> & S0 & N0).
      exists v, h1, k0, (h2 ++ [o]). split; [rewrite <- app_assoc; reflexivity|]. split; auto. intros k2 w Q. apply in_app_iff in Q as [Q|[Q|[]]]; eauto.
  Qed.

  Theorem run_find nb (h : list (mop K V)) k : (1 <= nb)%nat -> keys_ok ok h -> ok k ->
    (forall v, ut_find hash eq cached (ut_run hash eq cached nb h) k = Some v <-> last_put same h k v) /\
    (ut_find hash eq cached (ut_run hash eq cached nb h) k = None <-> never_put same h k).
  Proof.
    intros H O Ok. destruct (run_map nb h H O) as (I & W). split; [intros v; rewrite find_iff by auto; apply W|]. rewrite find_none_iff by auto. split.
    - intros N k1 v1 Q S. destruct (put_last h k k1 v1 O Ok Q S) as (v & L). apply W in L. exact (N v L).
    - intros N v L. apply W in L. destruct L as (h1 & k1 & h2 & -> & S & _). apply (N k1 v); auto. apply in_app_iff. right. left. auto.
  Qed.
End Table.

Theorem run_is_map {K V} (hash : K -> Z) (eq : K -> K -> bool) cached (ok : K -> Prop) nb (h : list (mop K V)) :
  (forall a b, ok a -> ok b -> (eq a b = true <-> a = b)) -> (1 <= nb)%nat -> keys_ok ok h ->
  is_map ok h (ut_find hash eq cached (ut_run hash eq cached nb h)) (ut_size (ut_run hash eq cached nb h)).
Proof.
  intros Heq H O. assert (forall a b : K, ok a -> ok b -> a = b -> hash a = hash b) as Hh by (intros; subst; auto).
  assert (forall a b : K, a = b -> b = a) as S by auto. assert (forall a b c : K, a = b -> b = c -> a = c) as T by congruence. assert (forall a : K, a = a) as R by auto.
  split; [intros k Ok; apply (run_find hash eq cached ok Logic.eq Heq S T Hh nb h k H O Ok)|].
  destruct (run_map hash eq cached ok Logic.eq Heq S T Hh nb h H O) as (I & W). set (t := ut_run hash eq cached nb h) in *. intros ks (N & M). unfold ut_size.
  assert (NoDup (map (fun e => snd (fst e)) (concat t))) as N'.
  { destruct I as (_ & _ & F). induction F as [|e l F F' IH]; cbn; constructor; auto. rewrite Forall_forall in F. intros Q. apply in_map_iff in Q as (e' & Q & I'). apply (F e' I'). auto. }
  rewrite <- (map_length (fun e => snd (fst e)) (concat t)). apply Permutation_length, NoDup_Permutation; auto. intros k. rewrite M, in_map_iff. split.
  - intros (e & <- & Q). assert (has Logic.eq t (snd (fst e)) (snd e)) as X by (exists e; auto). apply W in X as (h1 & k1 & h2 & -> & -> & _). exists (snd e). apply in_app_iff. right. left. auto.
  - intros (v & Q). destruct (put_last eq ok Logic.eq Heq h k k v O) as (v' & L); auto; [apply (proj1 O _ _ Q)|]. apply W in L as (e & Q' & E & _). eauto.
Qed.

Lemma eq_shape a b : shape a -> shape b -> (ip_eq a b = true <-> a = b).
Proof. intros (n & A & _) (m & B & _). split; [intros E; apply ppos_ext; auto; exact (proj1 (ip_eq_rows a b) E)|intros ->; apply ip_eq_rows; auto]. Qed.
Lemma eq_shape2 a b : shape2 a -> shape2 b -> (eq_pair a b = true <-> a = b).
Proof. destruct a, b. intros (A & B) (C & D). unfold eq_pair. cbn in *. rewrite andb_true_iff, !eq_shape by auto. intuition congruence. Qed.
Lemma eq_shape3 a b : shape3 a -> shape3 b -> (eq_triple a b = true <-> a = b).
Proof. destruct a as [[]], b as [[]]. intros (A & B & C) (D & E & F). unfold eq_triple. cbn in *. rewrite !andb_true_iff, !eq_shape by auto. intuition congruence. Qed.
Lemma eq_sig_iff a b : eq_sig a b = true <-> a = b.
Proof. destruct a as [a1 a2], b as [b1 b2]. unfold eq_sig. cbn. destruct (Z.eqb_spec a1 b1), (Z.eqb_spec a2 b2); cbn; intuition congruence. Qed.

Theorem map_partitions {V} cached nb (h : list (mop (list Z) V)) : (1 <= nb)%nat -> keys_ok shape h ->
  is_map shape h (ut_find ip_hash ip_eq cached (ut_run ip_hash ip_eq cached nb h)) (ut_size (ut_run ip_hash ip_eq cached nb h)).
Proof. apply run_is_map, eq_shape. Qed.
Theorem map_pairs {V} cached nb (h : list (mop (list Z * list Z) V)) : (1 <= nb)%nat -> keys_ok shape2 h ->
  is_map shape2 h (ut_find hash_pair eq_pair cached (ut_run hash_pair eq_pair cached nb h)) (ut_size (ut_run hash_pair eq_pair cached nb h)).
Proof. apply run_is_map, eq_shape2. Qed.
Theorem map_triples {V} cached nb (h : list (mop (list Z * list Z * list Z) V)) : (1 <= nb)%nat -> keys_ok shape3 h ->
  is_map shape3 h (ut_find hash_triple eq_triple cached (ut_run hash_triple eq_triple cached nb h)) (ut_size (ut_run hash_triple eq_triple cached nb h)).
Proof. apply run_is_map, eq_shape3. Qed.
Theorem map_sigs {V} cached nb (h : list (mop (Z * Z) V)) : (1 <= nb)%nat -> keys_ok (fun _ => True) h ->
  is_map (fun _ => True) h (ut_find hash_sig eq_sig cached (ut_run hash_sig eq_sig cached nb h)) (ut_size (ut_run hash_sig eq_sig cached nb h)).
Proof. apply run_is_map. intros. apply eq_sig_iff. Qed.

(* arrays with trailing zeros are equal to keys that are not found, when the hash codes are compared first *)
Lemma nth_repeat_nil {A} nb i : nth i (repeat (@nil A) nb) [] = [].
Proof. revert i. induction nb as [|nb IH]; intros [|i]; cbn; auto. Qed.

Theorem array_lost {V} nb (v w : V) : (1 <= nb)%nat ->
  ip_eq [1] [1; 0] = true /\
  ut_find ip_hash ip_eq true (ut_run ip_hash ip_eq true nb [MPut [1] v]) [1; 0] = None /\
  ut_size (ut_run ip_hash ip_eq true nb [MPut [1] v; MPut [1; 0] w]) = 2%nat.
Proof.
  intros H. split; [reflexivity|]. unfold ut_run. cbn [fold_left ut_step]. set (t := ut_put ip_hash ip_eq true (repeat [] nb) [1] v).
  assert (length t = nb) as L by (unfold t, ut_put; rewrite length_at; apply repeat_length).
  assert (forall i, nth i t [] = [] \/ nth i t [] = [(ip_hash [1], [1], v)]) as N.
  { intros i. unfold t, ut_put. rewrite nth_at by (rewrite repeat_length; apply bucket_lt; auto). rewrite !nth_repeat_nil. destruct (Nat.eqb _ _); auto. }
  split.
  - unfold ut_find. destruct (N (bucket (length t) (ip_hash [1; 0]))) as [-> | ->]; reflexivity.
  - unfold ut_size, ut_put. assert (lt (bucket (length t) (ip_hash [1; 0])) (length t)) as B by (apply bucket_lt; lia).
    destruct (concat_at t _ B) as (c & P & Q). apply Permutation_length in P. specialize (Q (fun b => put_in ip_hash ip_eq true b [1; 0] w)). apply Permutation_length in Q. rewrite Q. rewrite app_length in *.
    assert (length (concat t) = 1%nat) as C.
    { unfold t, ut_put. assert (lt (bucket (length (repeat (@nil (Z * list Z * V)) nb)) (ip_hash [1])) (length (repeat (@nil (Z * list Z * V)) nb))) as B' by (apply bucket_lt; rewrite repeat_length; lia).
      destruct (concat_at _ _ B') as (c' & P' & Q'). rewrite (Permutation_length (Q' _)). apply Permutation_length in P'. rewrite nth_repeat_nil in *. assert (concat (repeat (@nil (Z * list Z * V)) nb) = []) as E by (clear; induction nb; cbn; auto). rewrite E in P'. destruct c'; [reflexivity|discriminate P']. }
    assert (length (put_in ip_hash ip_eq true (nth (bucket (length t) (ip_hash [1; 0])) t []) [1; 0] w) = S (length (nth (bucket (length t) (ip_hash [1; 0])) t []))) as E. { destruct (N (bucket (length t) (ip_hash [1; 0]))) as [-> | ->]; reflexivity. }
    rewrite E. lia.
Qed.
