(* Inversions: exchanging the values i and i+1 changes the sign. *)
From Coq Require Import ZArith List Bool Lia ZifyBool Reals Lra Permutation.
From Verif Require Import Model_Base Model_Perm Spec_Perm Spec_Part Spec_Tab Spec_Sign.
From Verif Require Import Proof_Base Proof_Perm Proof_Part Proof_Tab Proof_TabProps Proof_Cycles Proof_Cox Proof_Yor Proof_Rep.
Import ListNotations.
Open Scope Z_scope.

Definition cnt (x : Z) (l : list Z) : nat := length (filter (fun y => (y <? x)%Z) l).

Lemma cnt_other i x l : x <> i -> x <> i + 1 -> cnt x (map (swp i (i + 1)) l) = cnt x l.
Proof.
  intros H1 H2. unfold cnt. induction l as [|y l IH]; auto. cbn [map filter]. assert ((swp i (i + 1) y <? x) = (y <? x)) as -> by (unfold swp; zcases).
  destruct (y <? x); cbn [length]; auto.
Qed.
Lemma cnt_low i l : ~ In i l -> NoDup l -> cnt (i + 1) (map (swp i (i + 1)) l) = (cnt i l + if in_dec Z.eq_dec (i + 1)%Z l then 1 else 0)%nat.
Proof.
  intros H N. unfold cnt. induction l as [|y l IH]; auto. inversion N as [|? ? N1 N2]; subst. cbn [map filter].
  specialize (IH ltac:(intros Q; apply H; right; auto) N2). assert (y <> i) as Hy by (intros ->; apply H; left; auto).
  destruct (Z.eq_dec y (i + 1)) as [->|Ny].
  - rewrite swp_2. assert ((i <? i + 1) = true) as -> by lia. assert ((i + 1 <? i) = false) as -> by lia. cbn [length]. rewrite IH.
    destruct (in_dec Z.eq_dec (i + 1) l); [contradiction|]. destruct (in_dec Z.eq_dec (i + 1) (i + 1 :: l)) as [|X]; [lia|]. exfalso; apply X; left; auto.
  - rewrite swp_3 by auto. assert ((y <? i + 1) = (y <? i)) as -> by lia. destruct (in_dec Z.eq_dec (i + 1) (y :: l)) as [X|X], (in_dec Z.eq_dec (i + 1) l) as [Y|Y]; destruct (y <? i); cbn [length]; try lia.
    all: exfalso; cbn in X; intuition.
Qed.
Lemma cnt_high i l : ~ In (i + 1) l -> NoDup l -> cnt (i + 1) l = (cnt i (map (swp i (i + 1)%Z) l) + if in_dec Z.eq_dec i l then 1 else 0)%nat.
Proof.
  intros H N. unfold cnt. induction l as [|y l IH]; auto. inversion N as [|? ? N1 N2]; subst. cbn [map filter].
  specialize (IH ltac:(intros Q; apply H; right; auto) N2). assert (y <> i + 1) as Hy by (intros ->; apply H; left; auto).
  destruct (Z.eq_dec y i) as [->|Ny].
  - rewrite swp_1. assert ((i <? i + 1) = true) as -> by lia. assert ((i + 1 <? i) = false) as -> by lia. cbn [length]. rewrite IH.
    destruct (in_dec Z.eq_dec i l); [contradiction|]. destruct (in_dec Z.eq_dec i (i :: l)) as [|X]; [lia|]. exfalso; apply X; left; auto.
  - rewrite swp_3 by auto. assert ((y <? i + 1) = (y <? i)) as -> by lia. destruct (in_dec Z.eq_dec i (y :: l)) as [X|X], (in_dec Z.eq_dec i l) as [Y|Y]; destruct (y <? i); cbn [length]; try lia.
    all: exfalso; cbn in X; intuition.
Qed.

Lemma inversions_keep i l : NoDup l -> (~ In i l \/ ~ In (i + 1) l) -> inversions (map (swp i (i + 1)) l) = inversions l.
Proof.
  intros N H. induction l as [|x l IH]; auto. inversion N as [|? ? N1 N2]; subst. cbn [map inversions].
  assert (~ In i l \/ ~ In (i + 1) l) as H' by (destruct H as [H|H]; [left|right]; intros Q; apply H; right; auto). rewrite IH by auto. f_equal.
  destruct (Z.eq_dec x i) as [->|N3]; [|destruct (Z.eq_dec x (i + 1)) as [->|N4]].
  - destruct H as [H|H]; [exfalso; apply H; left; auto|]. rewrite swp_1. change (cnt (i + 1) (map (swp i (i + 1)) l) = cnt i l). rewrite cnt_low by auto. destruct (in_dec Z.eq_dec (i + 1) l) as [X|]; [exfalso; apply H; right; auto|lia].
  - destruct H as [H|H]; [|exfalso; apply H; left; auto]. rewrite swp_2. change (cnt i (map (swp i (i + 1)) l) = cnt (i + 1) l). rewrite (cnt_high i l) by auto. destruct (in_dec Z.eq_dec i l) as [X|]; [exfalso; apply H; right; auto|lia].
  - rewrite swp_3 by auto. apply (cnt_other i x l); auto.
Qed.

Lemma inversions_swap i l : NoDup l -> In i l -> In (i + 1) l -> Nat.even (inversions (map (swp i (i + 1)) l)) = negb (Nat.even (inversions l)).
Proof.
  intros N Hi Hj. induction l as [|x l IH]; [destruct Hi|]. inversion N as [|? ? N1 N2]; subst. cbn [map inversions].
  change (length (filter (fun y => y <? swp i (i + 1) x) (map (swp i (i + 1)) l))) with (cnt (swp i (i + 1) x) (map (swp i (i + 1)) l)). change (length (filter (fun y => y <? x) l)) with (cnt x l).
  destruct (Z.eq_dec x i) as [->|N3]; [|destruct (Z.eq_dec x (i + 1)) as [->|N4]].
  - rewrite swp_1, cnt_low, inversions_keep by auto. destruct Hj as [Hj|Hj]; [lia|]. destruct (in_dec Z.eq_dec (i + 1) l); [|contradiction]. rewrite !Nat.even_add. destruct (Nat.even (cnt i l)), (Nat.even (inversions l)); auto.
  - rewrite swp_2, (cnt_high i l), inversions_keep by auto. destruct Hi as [Hi|Hi]; [lia|]. destruct (in_dec Z.eq_dec i l); [|contradiction]. rewrite !Nat.even_add. destruct (Nat.even (cnt i (map (swp i (i + 1)) l))), (Nat.even (inversions l)); auto.
  - rewrite swp_3, cnt_other by auto. destruct Hi as [Hi|Hi]; [congruence|]. destruct Hj as [Hj|Hj]; [congruence|]. rewrite !Nat.even_add, IH by auto. destruct (Nat.even (cnt x l)), (Nat.even (inversions l)); auto.
Qed.

Lemma sign_swap i l : NoDup l -> In i l -> In (i + 1) l -> sign (map (swp i (i + 1)) l) = - sign l.
Proof. intros N Hi Hj. unfold sign. rewrite inversions_swap by auto. destruct (Nat.even (inversions l)); auto. Qed.

Lemma sign_sq l : sign l * sign l = 1.
Proof. unfold sign. destruct (Nat.even _); auto. Qed.

Lemma inversions_mono f : (forall a b, (a <= b)%nat -> f a <= f b) -> forall k a, inversions (map f (seq a k)) = 0%nat.
Proof.
  intros M. induction k as [|k IH]; intros a; auto. cbn [seq map inversions]. rewrite IH.
  assert (forall m b, (a <= b)%nat -> filter (fun y => y <? f a) (map f (seq b m)) = []) as F.
  { induction m as [|m IHm]; intros b Hb; auto. cbn [seq map filter]. specialize (M a b Hb). assert ((f b <? f a) = false) as -> by lia. apply IHm. lia. }
  rewrite F by lia. auto.
Qed.

Lemma sign_pid n : sign (pid n) = 1.
Proof. unfold sign, pid, ztab, zrange. rewrite map_map, inversions_mono; auto. intros; lia. Qed.

Lemma pstep_swp n j q : is_perm n q -> 1 <= j < n -> pstep n j q = map (swp j (j + 1)) q.
Proof.
  intros P Hj. apply (perm_ext n).
  - apply is_perm_len. apply is_perm_pstep; auto.
  - rewrite zlen_map. apply is_perm_len; auto.
  - intros i Hi. rewrite img_pstep by (auto; lia). unfold img. rewrite (nth_indep (map _ _) 0 (swp j (j + 1) 0)) by (rewrite map_length; destruct P as (L & _); lia). rewrite map_nth. unfold tfun, swp. auto.
Qed.

Lemma sign_pstep n j q : is_perm n q -> 1 <= j < n -> sign (pstep n j q) = - sign q.
Proof. intros P Hj. rewrite pstep_swp by auto. apply sign_swap; [apply P| |]; eapply is_perm_onto; eauto; lia. Qed.

Lemma sign_word n w : (forall j, In j w -> 1 <= j < n) -> forall q, is_perm n q -> sign (aw (pstep n) w q) = (-1) ^ zlen w * sign q.
Proof.
  induction w as [|j w IH]; intros Hw q P; [unfold aw; cbn [fold_left]; change (zlen []) with 0; rewrite Z.pow_0_r; lia|].
  rewrite aw_cons, IH by (intros; try apply Hw; try right; auto; apply is_perm_pstep; auto; apply Hw; left; auto).
  rewrite sign_pstep by (auto; apply Hw; left; auto). rewrite zlen_cons, Z.pow_add_r by (pose proof (zlen_nonneg w); lia). change ((-1) ^ 1) with (-1). ring_simplify. lia.
Qed.

Lemma sign_pword n p : is_perm n p -> sign p = (-1) ^ zlen (pword (Z.to_nat n) p).
Proof.
  intros P. rewrite <- (pw_pword n p P) at 1. unfold pw. rewrite sign_word.
  - rewrite sign_pid. lia.
  - intros j. apply pword_in; auto.
  - apply is_perm_pid. eapply is_perm_nonneg; eauto.
Qed.

Lemma sign_pw n w : 0 <= n -> (forall j, In j w -> 1 <= j < n) -> sign (pw n w) = (-1) ^ zlen w.
Proof. intros Hn Hw. unfold pw. rewrite sign_word, sign_pid by (auto; apply is_perm_pid; auto). lia. Qed.

Lemma pow_sign k : ((-1) ^ k)%R = IZR ((-1) ^ Z.of_nat k).
Proof.
  induction k as [|k IH]; [reflexivity|]. rewrite Nat2Z.inj_succ, Z.pow_succ_r, mult_IZR by lia. cbn [pow]. rewrite IH. reflexivity.
Qed.
