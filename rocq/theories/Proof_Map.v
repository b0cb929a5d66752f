(* Ordered maps as sorted lists. *)
From Coq Require Import ZArith List Bool Lia Sorting.Sorted.
From Verif Require Import Model_Base Model_Type.
From Verif Require Import Proof_Base.
Import ListNotations.

Section OMap.
  Context {K V : Type} (lt : K -> K -> outcome bool) (D : K -> Prop) (R : K -> K -> Prop) (dec : forall a b : K, {a = b} + {a <> b}).
  Hypothesis Hlt : forall a b, D a -> D b -> exists v, lt a b = Ret v /\ (v = true <-> R a b).
  Hypothesis Hirr : forall a, ~ R a a.
  Hypothesis Htr : forall a b c, R a b -> R b c -> R a c.
  Hypothesis Htot : forall a b, D a -> D b -> R a b \/ a = b \/ R b a.

  Fixpoint aget (m : list (K * V)) (k : K) : option V :=
    match m with [] => None | (k', v) :: m' => if dec k' k then Some v else aget m' k end.

  Definition mvalid (m : list (K * V)) : Prop := StronglySorted R (map fst m) /\ Forall D (map fst m).

  Lemma mvalid_nil : mvalid [].
  Proof. split; constructor. Qed.

  Lemma mvalid_inv k v m : mvalid ((k, v) :: m) -> D k /\ Forall (R k) (map fst m) /\ mvalid m.
  Proof. intros (A & B). cbn in A, B. inversion A; subst. inversion B; subst. repeat split; auto. Qed.

  Lemma aget_none m k : (forall x, In x (map fst m) -> x <> k) -> aget m k = None.
  Proof. induction m as [|(k', v) m IH]; intros H; cbn in *; auto. destruct (dec k' k) as [E|E]; [destruct (H k'); auto|]. apply IH. auto. Qed.

  Lemma aget_some m k v : aget m k = Some v -> In k (map fst m).
  Proof. induction m as [|(k', w) m IH]; cbn; [discriminate|]. destruct (dec k' k); auto. Qed.

  Lemma aget_in m k : In k (map fst m) -> exists v, aget m k = Some v.
  Proof. induction m as [|(k', w) m IH]; cbn; [tauto|]. intros [E|E]; destruct (dec k' k); eauto. contradiction. Qed.

  Lemma R_neq a b : R a b -> a <> b.
  Proof. intros H ->. exact (Hirr _ H). Qed.
  Lemma R_asym a b : R a b -> ~ R b a.
  Proof. intros H G. exact (Hirr _ (Htr _ _ _ H G)). Qed.

  Lemma lt_true a b : D a -> D b -> R a b -> lt a b = Ret true.
  Proof. intros A B H. destruct (Hlt a b A B) as (v & E & Q). rewrite E. f_equal. apply Q. auto. Qed.
  Lemma lt_false a b : D a -> D b -> ~ R a b -> lt a b = Ret false.
  Proof. intros A B H. destruct (Hlt a b A B) as (v & E & Q). rewrite E. f_equal. destruct v; auto. destruct H. apply Q. auto. Qed.

  Lemma find_ok m k : mvalid m -> D k -> sm_find lt m k = Ret (aget m k).
  Proof.
    intros M Dk. induction m as [|(k', v) m IH]; [reflexivity|]. apply mvalid_inv in M as (Dk' & F & M). cbn [sm_find aget]. destruct (Htot k' k Dk' Dk) as [H|[H|H]].
    - rewrite lt_true by auto. cbn [bind]. destruct (dec k' k) as [E|]; [destruct (R_neq _ _ H E)|]. auto.
    - subst k'. rewrite lt_false by auto. cbn [bind]. destruct (dec k k); [reflexivity|contradiction].
    - rewrite lt_false by (auto using R_asym). cbn [bind]. rewrite lt_true by auto. cbn [bind]. destruct (dec k' k) as [E|]; [destruct (R_neq _ _ H); auto|]. rewrite aget_none; auto. intros x Hx ->. rewrite Forall_forall in F. exact (R_asym _ _ H (F k Hx)).
  Qed.

  Lemma put_ok m k v : mvalid m -> D k -> exists m', sm_put lt m k v = Ret m' /\ mvalid m' /\ (forall x, In x (map fst m') <-> x = k \/ In x (map fst m)) /\ forall x, aget m' x = if dec k x then Some v else aget m x.
  Proof.
    intros M Dk. induction m as [|(k', v') m IH].
    - exists [(k, v)]. split; [reflexivity|]. split; [split; repeat constructor; auto|]. split; [cbn; intuition congruence|]. intros x. reflexivity.
    - pose proof M as M0. apply mvalid_inv in M as (Dk' & F & M). cbn [sm_put]. destruct (Htot k' k Dk' Dk) as [H|[H|H]].
      + rewrite lt_true by auto. cbn [bind]. destruct (IH M) as (m' & E & M' & I & A). rewrite E. cbn [bind]. exists ((k', v') :: m'). split; auto. destruct M' as (S1 & S2). split; [|split].
        * split; cbn [map fst]; constructor; auto. apply Forall_forall. intros x Hx. apply I in Hx as [->|Hx]; auto. rewrite Forall_forall in F. auto.
        * intros x. cbn [map fst In]. rewrite I. tauto.
        * intros x. cbn [aget]. rewrite A. destruct (dec k' x), (dec k x); auto. subst. destruct (R_neq _ _ H); auto.
      + subst k'. rewrite lt_false by auto. cbn [bind]. exists ((k, v) :: m). split; auto. split; [exact M0|]. split; [intros x; cbn; intuition congruence|]. intros x. cbn. destruct (dec k x); auto.
      + rewrite lt_false by (auto using R_asym). cbn [bind]. rewrite lt_true by auto. cbn [bind]. exists ((k, v) :: (k', v') :: m). split; auto. destruct M0 as (S1 & S2). split; [|split].
        * split; cbn [map fst] in *; constructor; auto. constructor; auto. apply Forall_forall. intros x Hx. rewrite Forall_forall in F. eauto.
        * intros x. cbn. intuition congruence.
        * intros x. reflexivity.
  Qed.

  Lemma ref_ok m k d : mvalid m -> D k -> exists m', sm_ref lt m k d = Ret (match aget m k with Some v => v | None => d end, m') /\ mvalid m' /\ (forall x, In x (map fst m') <-> x = k \/ In x (map fst m)) /\
    (forall x, aget m' x = if dec k x then Some (match aget m k with Some v => v | None => d end) else aget m x) /\ (In k (map fst m) -> m' = m).
  Proof.
    intros M Dk. unfold sm_ref. rewrite find_ok by auto. cbn [bind]. destruct (aget m k) as [v|] eqn:E.
    - exists m. split; auto. split; auto. split; [|split; auto].
      + intros x. split; [tauto|]. intros [->|]; auto. eapply aget_some; eauto.
      + intros x. destruct (dec k x) as [->|]; auto.
    - destruct (put_ok m k d M Dk) as (m' & P & M' & I & A). rewrite P. cbn [bind]. exists m'. split; auto. split; auto. split; auto. split; auto. intros Hk. apply aget_in in Hk as (v & Hv). congruence.
  Qed.

  Lemma map_ext_valid m m' : mvalid m -> mvalid m' -> (forall k, aget m k = aget m' k) -> m = m'.
  Proof.
    revert m'. induction m as [|(k, v) m IH]; intros [|(k', v') m'] M M' H; auto.
    - specialize (H k'). cbn in H. destruct (dec k' k'); [discriminate|contradiction].
    - specialize (H k). cbn in H. destruct (dec k k); [discriminate|contradiction].
    - apply mvalid_inv in M as (Dk & F & M). apply mvalid_inv in M' as (Dk' & F' & M').
      assert (k = k') as <-.
      { destruct (dec k k') as [|N]; auto. rewrite Forall_forall in F, F'. pose proof (H k) as A. pose proof (H k') as B. cbn in A, B. destruct (dec k k) as [_|]; [|contradiction]. destruct (dec k' k') as [_|]; [|contradiction]. destruct (dec k' k) as [|_]; [congruence|]. destruct (dec k k') as [|_]; [congruence|].
        symmetry in A. apply aget_some in A. apply aget_some in B. destruct (R_asym _ _ (F k' B) (F' k A)). }
      assert (v = v') as <- by (specialize (H k); cbn in H; destruct (dec k k); [congruence|contradiction]).
      f_equal. apply IH; auto. intros x. specialize (H x). cbn in H. destruct (dec k x) as [<-|]; auto. rewrite !aget_none; auto; intros y Hy ->; rewrite Forall_forall in F, F'; [apply (Hirr k), F'|apply (Hirr k), F]; auto.
  Qed.
End OMap.
Arguments aget {K V} dec m k.
Arguments mvalid {K V} D R m.
