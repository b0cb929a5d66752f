(* Operators that satisfy the Coxeter relations define an action of the symmetric group through the
   normal form used by SnIrrepObj::apply_left. *)
From Coq Require Import ZArith List Bool Lia ZifyBool ZifyNat.
From Verif Require Import Model_Base Spec_Perm Proof_Base Proof_Perm Proof_Cycles.
Import ListNotations.
Open Scope Z_scope.

Ltac noif u := lazymatch u with context [if _ then _ else _] => fail | _ => idtac end.
Ltac zc := repeat (cbn [andb orb negb]; match goal with
  | |- context [?u =? ?v] => noif u; noif v; destruct (Z.eqb_spec u v)
  | |- context [?u <=? ?v] => noif u; noif v; destruct (Z.leb_spec u v)
  | |- context [?u <? ?v] => noif u; noif v; destruct (Z.ltb_spec u v)
  | |- context [?u >? ?v] => noif u; noif v; destruct (Z.gtb_spec u v)
  end); cbn [andb orb negb]; try lia.

Definition pdec (a v : Z) : Z := if v >? a then v - 1 else v.

Definition prest (k : Z) (p : list Z) : list Z := ztab k (fun i => pdec (img p (k + 1)) (img p (i + 1))).

(* generators in the order in which they are applied *)
Fixpoint pword (k : nat) (p : list Z) : list Z :=
  match k with
  | O => []
  | S k' => pword k' (prest (Z.of_nat k') p) ++ rev (zrange (img p (Z.of_nat k' + 1)) (Z.of_nat k' + 1))
  end.

Lemma img_prest k p i : 1 <= i <= k -> img (prest k p) i = pdec (img p (k + 1)) (img p i).
Proof. intros H. unfold prest. rewrite img_ztab by lia. replace (i - 1 + 1) with i by lia. reflexivity. Qed.

Lemma is_perm_prest k p : 0 <= k -> is_perm (k + 1) p -> is_perm k (prest k p).
Proof.
  intros Hk P. apply is_perm_intro.
  - unfold prest. apply zlen_ztab. lia.
  - intros i Hi. rewrite img_prest by lia. pose proof (is_perm_img _ _ i P ltac:(lia)). pose proof (is_perm_img _ _ (k + 1) P ltac:(lia)).
    assert (img p i <> img p (k + 1)) by (intros E; apply (img_inj _ _ _ _ P) in E; lia). unfold pdec. destruct (Z.gtb_spec (img p i) (img p (k + 1))); lia.
  - intros i j Hi Hj. rewrite !img_prest by lia. intros E.
    assert (img p i <> img p (k + 1)) by (intros E'; apply (img_inj _ _ _ _ P) in E'; lia).
    assert (img p j <> img p (k + 1)) by (intros E'; apply (img_inj _ _ _ _ P) in E'; lia).
    apply (img_inj _ _ _ _ P); [lia|lia|]. revert E. unfold pdec.
    destruct (Z.gtb_spec (img p i) (img p (k + 1))), (Z.gtb_spec (img p j) (img p (k + 1))); lia.
Qed.

Lemma prest_ext k p q : (forall i, 1 <= i <= k -> pdec (img p (k + 1)) (img p i) = img q i) -> 0 <= k -> zlen q = k -> prest k p = q.
Proof.
  intros H Hk L. apply (perm_ext k); [unfold prest; apply zlen_ztab; lia|auto|]. intros i Hi. rewrite img_prest by lia. auto.
Qed.

Lemma pword_range k : forall p j, is_perm (Z.of_nat k) p -> In j (pword k p) -> 1 <= j < Z.of_nat k.
Proof.
  induction k as [|k IH]; intros p j P H; [destruct H|]. simpl in H. replace (Z.of_nat (S k)) with (Z.of_nat k + 1) in * by lia.
  apply in_app_iff in H as [H|H].
  - apply IH in H; [lia|]. apply is_perm_prest; [lia|auto].
  - apply in_rev in H. apply in_zrange in H. pose proof (is_perm_img _ _ (Z.of_nat k + 1) P ltac:(lia)). lia.
Qed.

Definition cyc (a n : Z) : list Z := rev (zrange a n).

Lemma in_cyc a n i : In i (cyc a n) <-> a <= i < n.
Proof. unfold cyc. rewrite <- in_rev, in_zrange. reflexivity. Qed.

Lemma cyc_split a m n : a <= m <= n -> cyc a n = cyc m n ++ cyc a m.
Proof. intros H. unfold cyc. rewrite (zrange_app a m n) by lia. apply rev_app_distr. Qed.

Lemma cyc_one a : cyc a (a + 1) = [a].
Proof. unfold cyc. rewrite zrange_cons, zrange_nil by lia. reflexivity. Qed.

Lemma cyc_nil a n : n <= a -> cyc a n = [].
Proof. intros. unfold cyc. rewrite zrange_nil by lia. reflexivity. Qed.

Section Cox.
  Context {X : Type} (eqv : X -> X -> Prop) (ok : X -> Prop) (T : Z -> X -> X).
  Hypothesis eqv_refl : forall x, eqv x x.
  Hypothesis eqv_sym : forall x y, eqv x y -> eqv y x.
  Hypothesis eqv_trans : forall x y z, eqv x y -> eqv y z -> eqv x z.

  Definition aw (w : list Z) (x : X) : X := fold_left (fun x j => T j x) w x.

  Definition cox (n : Z) : Prop :=
    (forall j x, 1 <= j < n -> ok x -> ok (T j x)) /\
    (forall j x y, 1 <= j < n -> ok x -> ok y -> eqv x y -> eqv (T j x) (T j y)) /\
    (forall j x, 1 <= j < n -> ok x -> eqv (T j (T j x)) x) /\
    (forall j x, 1 <= j -> j + 1 < n -> ok x -> eqv (T j (T (j + 1) (T j x))) (T (j + 1) (T j (T (j + 1) x)))) /\
    (forall i j x, 1 <= i -> i + 1 < j -> j < n -> ok x -> eqv (T i (T j x)) (T j (T i x))).

  Lemma cox_le n m : m <= n -> cox n -> cox m.
  Proof.
    intros L (A & B & C & D & E). split; [|split; [|split; [|split]]]; intros.
    - apply A; auto; lia.
    - apply B; auto; lia.
    - apply C; auto; lia.
    - apply D; auto; lia.
    - apply E; auto; lia.
  Qed.

  Lemma aw_app w w' x : aw (w ++ w') x = aw w' (aw w x).
  Proof. unfold aw. apply fold_left_app. Qed.

  Lemma aw_cons j w x : aw (j :: w) x = aw w (T j x).
  Proof. reflexivity. Qed.

  Lemma aw_ok n w : cox n -> (forall j, In j w -> 1 <= j < n) -> forall x, ok x -> ok (aw w x).
  Proof.
    intros C. induction w as [|j w IH]; intros H x O; [exact O|]. rewrite aw_cons. apply IH; [intros; apply H; right; auto|].
    apply C; auto. apply H. left; auto.
  Qed.

  Lemma aw_eqv n w : cox n -> (forall j, In j w -> 1 <= j < n) -> forall x y, ok x -> ok y -> eqv x y -> eqv (aw w x) (aw w y).
  Proof.
    intros C. induction w as [|j w IH]; intros H x y O O' E; [exact E|]. rewrite !aw_cons.
    assert (1 <= j < n) by (apply H; left; auto). apply IH; [intros; apply H; right; auto| | |]; apply C; auto.
  Qed.

  Lemma aw_comm n w j : cox n -> 1 <= j < n -> (forall i, In i w -> 1 <= i < n /\ (i + 1 < j \/ j + 1 < i)) ->
    forall x, ok x -> eqv (T j (aw w x)) (aw w (T j x)).
  Proof.
    intros C Hj. induction w as [|i w IH]; intros H x O; [apply eqv_refl|]. rewrite !aw_cons.
    destruct (H i ltac:(left; auto)) as (Hi & D). assert (ok (T i x)) by (apply C; auto).
    eapply eqv_trans; [apply IH; auto; intros; apply H; right; auto|].
    assert (ok (T j x)) by (apply C; auto).
    apply (aw_eqv n); auto.
    - intros i' Hi'. apply H. right; auto.
    - apply C; auto.
    - apply C; auto.
    - destruct C as (_ & _ & _ & _ & C). destruct D; [apply eqv_sym|]; apply C; auto; lia.
  Qed.

  Ltac inr := intros ? ?HI; try apply in_cyc in HI; lia.

  Lemma cyc_low n a j x : cox n -> 1 <= j -> j + 1 < a -> a <= n -> ok x -> eqv (T j (aw (cyc a n) x)) (aw (cyc a n) (T j x)).
  Proof. intros C H1 H2 H3 O. apply (aw_comm n); auto; [lia|inr]. Qed.

  Lemma cyc_high n a j x : cox n -> 1 <= a -> a < j -> j < n -> ok x -> eqv (T j (aw (cyc a n) x)) (aw (cyc a n) (T (j - 1) x)).
  Proof.
    intros C H1 H2 H3 O.
    rewrite (cyc_split a (j + 1) n) by lia. rewrite (cyc_split a (j - 1) (j + 1)) by lia. rewrite (cyc_split (j - 1) j (j + 1)) by lia.
    rewrite cyc_one. replace (cyc (j - 1) j) with [j - 1] by (rewrite <- (cyc_one (j - 1)); f_equal; lia).
    rewrite !aw_app. change (aw [j]) with (T j). change (aw [j - 1]) with (T (j - 1)).
    set (y := aw (cyc (j + 1) n) x). assert (ok y) as Oy by (apply (aw_ok n); auto; inr).
    set (y' := aw (cyc (j + 1) n) (T (j - 1) x)). assert (ok (T (j - 1) x)) as O1 by (apply C; auto; lia).
    assert (ok y') as Oy' by (apply (aw_ok n); auto; inr).
    assert (eqv (T (j - 1) y) y') as E1 by (apply (aw_comm n); auto; [lia|inr]).
    assert (forall i z, 1 <= i < n -> ok z -> ok (T i z)) as OT by (intros; apply C; auto).
    eapply eqv_trans; [apply (aw_comm n); auto; [lia|inr|apply OT; [lia|apply OT; [lia|auto]]]|].
    apply (aw_eqv n); auto; [inr| | |].
    - apply OT; [lia|]. apply OT; [lia|]. apply OT; [lia|]. auto.
    - apply OT; [lia|]. apply OT; [lia|]. auto.
    - assert (eqv (T (j - 1) (T j (T (j - 1) y))) (T (j - 1) (T j y'))) as E2.
      { destruct C as (_ & C & _). apply C; [lia| | |].
        + apply OT; [lia|]. apply OT; [lia|]. auto.
        + apply OT; [lia|]. auto.
        + apply C; auto; [lia|]. apply OT; [lia|]. auto. }
      eapply eqv_trans; [|exact E2]. destruct C as (_ & _ & _ & C & _). specialize (C (j - 1) y ltac:(lia) ltac:(lia) Oy).
      replace (j - 1 + 1) with j in C by lia. apply eqv_sym. exact C.
  Qed.

  Lemma cyc_up n a x : cox n -> 1 < a -> a <= n -> ok x -> T (a - 1) (aw (cyc a n) x) = aw (cyc (a - 1) n) x.
  Proof.
    intros C H1 H2 O. rewrite (cyc_split (a - 1) a n) by lia. rewrite aw_app.
    replace (cyc (a - 1) a) with [a - 1] by (rewrite <- (cyc_one (a - 1)); f_equal; lia). reflexivity.
  Qed.

  Lemma cyc_down n a x : cox n -> 1 <= a -> a < n -> ok x -> eqv (T a (aw (cyc a n) x)) (aw (cyc (a + 1) n) x).
  Proof.
    intros C H1 H2 O. rewrite (cyc_split a (a + 1) n) by lia. rewrite aw_app, cyc_one. apply C; [lia|]. apply (aw_ok n); auto. inr.
  Qed.

  (* one more generator on the left *)
  Lemma pword_step k : cox (Z.of_nat k) -> forall p j x, is_perm (Z.of_nat k) p -> 1 <= j < Z.of_nat k -> ok x ->
    eqv (aw (pword k (pmul (ptransp (Z.of_nat k) j (j + 1)) p)) x) (T j (aw (pword k p) x)).
  Proof.
    induction k as [|k IH]; intros C p j x P Hj O; [lia|]. cbn [pword]. rewrite !aw_app. fold (cyc (img p (Z.of_nat k + 1)) (Z.of_nat k + 1)).
    set (n := Z.of_nat k) in *. replace (Z.of_nat (S k)) with (n + 1) in * by lia.
    assert (0 <= n) by lia.
    set (q := pmul (ptransp (n + 1) j (j + 1)) p).
    assert (forall i, 1 <= i <= n + 1 -> img q i = tfun j (j + 1) (img p i)) as Iq.
    { intros i Hi. unfold q. rewrite img_pmul by (rewrite (is_perm_len _ _ P); lia). apply img_ptransp. apply (is_perm_img _ _ i P). lia. }
    rewrite (Iq (n + 1)) by lia. fold (cyc (tfun j (j + 1) (img p (n + 1))) (n + 1)).
    set (a := img p (n + 1)) in *. pose proof (is_perm_img _ _ (n + 1) P ltac:(lia)) as Ha. fold a in Ha.
    assert (forall i, 1 <= i <= n -> img p i <> a) as Na by (intros i Hi E; apply (img_inj _ _ _ _ P) in E; lia).
    assert (is_perm n (prest n p)) as Pr by (apply is_perm_prest; auto).
    assert (cox n) as C' by (apply (cox_le (n + 1)); auto; lia).
    assert (forall i, In i (pword k (prest n p)) -> 1 <= i < n + 1) as W by (intros i Hi; apply pword_range in Hi; auto; lia).
    assert (ok (aw (pword k (prest n p)) x)) as O1 by (apply (aw_ok (n + 1)); auto).
    destruct (Z_lt_dec (j + 1) a) as [L|L]; [|destruct (Z.eq_dec (j + 1) a) as [E|NE]; [|destruct (Z.eq_dec j a) as [E|NE2]]].
    - replace (tfun j (j + 1) a) with a by (unfold tfun; destruct (Z.eqb_spec a j); [lia|]; destruct (Z.eqb_spec a (j + 1)); lia).
      replace (prest n q) with (pmul (ptransp n j (j + 1)) (prest n p)).
      2:{ symmetry. apply prest_ext; auto; [|rewrite zlen_pmul; apply is_perm_len; auto]. intros i Hi. rewrite !Iq by lia. fold a.
          rewrite img_pmul by (rewrite (is_perm_len _ _ Pr); lia). rewrite img_ptransp by (apply (is_perm_img _ _ i Pr); lia).
          rewrite img_prest by lia. fold a. specialize (Na i Hi). unfold tfun, pdec.
          zc. }
      eapply eqv_trans; [|apply eqv_sym; apply (cyc_low (n + 1)); auto; lia].
      apply (aw_eqv (n + 1)); auto; [inr| | |].
      + apply (aw_ok (n + 1)); auto. intros i Hi. apply pword_range in Hi; [fold n in Hi; lia|]. apply is_perm_pmul; auto. apply is_perm_ptransp; lia.
      + apply C; auto.
      + apply IH; auto; lia.
    - replace (tfun j (j + 1) a) with (a - 1) by (unfold tfun; destruct (Z.eqb_spec a j); [lia|]; destruct (Z.eqb_spec a (j + 1)); lia).
      replace (prest n q) with (prest n p).
      2:{ symmetry. apply prest_ext; auto; [|apply is_perm_len; auto]. intros i Hi. rewrite !Iq by lia. fold a.
          rewrite img_prest by lia. fold a. specialize (Na i Hi). unfold tfun, pdec.
          zc. }
      replace j with (a - 1) by lia. rewrite <- (cyc_up (n + 1)) by (auto; lia). apply eqv_refl.
    - replace (tfun j (j + 1) a) with (a + 1) by (unfold tfun; destruct (Z.eqb_spec a j); lia).
      replace (prest n q) with (prest n p).
      2:{ symmetry. apply prest_ext; auto; [|apply is_perm_len; auto]. intros i Hi. rewrite !Iq by lia. fold a.
          rewrite img_prest by lia. fold a. specialize (Na i Hi). unfold tfun, pdec.
          zc. }
      rewrite E. apply eqv_sym. apply (cyc_down (n + 1)); auto; lia.
    - replace (tfun j (j + 1) a) with a by (unfold tfun; destruct (Z.eqb_spec a j); [lia|]; destruct (Z.eqb_spec a (j + 1)); lia).
      replace (prest n q) with (pmul (ptransp n (j - 1) (j - 1 + 1)) (prest n p)).
      2:{ symmetry. apply prest_ext; auto; [|rewrite zlen_pmul; apply is_perm_len; auto]. intros i Hi. rewrite !Iq by lia. fold a.
          rewrite img_pmul by (rewrite (is_perm_len _ _ Pr); lia). rewrite img_ptransp by (apply (is_perm_img _ _ i Pr); lia).
          rewrite img_prest by lia. fold a. specialize (Na i Hi). unfold tfun, pdec.
          zc. }
      eapply eqv_trans; [|apply eqv_sym; apply (cyc_high (n + 1)); auto; lia].
      apply (aw_eqv (n + 1)); auto; [inr| | |].
      + apply (aw_ok (n + 1)); auto. intros i Hi. apply pword_range in Hi; [fold n in Hi; lia|]. apply is_perm_pmul; auto. apply is_perm_ptransp; lia.
      + apply C; auto. lia.
      + apply IH; auto; lia.
  Qed.

End Cox.

Lemma pword_pid {X} (T : Z -> X -> X) k x : aw T (pword k (pid (Z.of_nat k))) x = x.
Proof.
  induction k as [|k IH]; [reflexivity|]. cbn [pword]. rewrite aw_app. replace (Z.of_nat (S k)) with (Z.of_nat k + 1) by lia.
  rewrite img_pid by lia. rewrite zrange_nil by lia. cbn [rev aw fold_left]. unfold aw at 1. cbn [fold_left].
  replace (prest (Z.of_nat k) (pid (Z.of_nat k + 1))) with (pid (Z.of_nat k)); [exact IH|].
  symmetry. apply prest_ext; [|lia|apply zlen_pid; lia]. intros i Hi. rewrite !img_pid by lia. unfold pdec.
  destruct (Z.gtb_spec i (Z.of_nat k + 1)); lia.
Qed.


(* the word of p multiplies out to p *)
Definition pstep (n j : Z) (q : list Z) : list Z := pmul (ptransp n j (j + 1)) q.

Lemma is_perm_pstep n j q : 1 <= j < n -> is_perm n q -> is_perm n (pstep n j q).
Proof. intros H P. apply is_perm_pmul; auto. apply is_perm_ptransp; lia. Qed.

Lemma img_pstep n j q i : is_perm n q -> 1 <= i <= n -> img (pstep n j q) i = tfun j (j + 1) (img q i).
Proof.
  intros P H. unfold pstep. rewrite img_pmul by (rewrite (is_perm_len _ _ P); lia). apply img_ptransp. apply (is_perm_img _ _ i P). lia.
Qed.

Lemma cox_perm n : cox eq (is_perm n) (pstep n) n.
Proof.
  split; [|split; [|split; [|split]]].
  - intros. apply is_perm_pstep; auto.
  - intros. congruence.
  - intros j q Hj P. apply (perm_ext n); try (apply is_perm_len; auto; repeat apply is_perm_pstep; auto; lia).
    intros i Hi. rewrite !img_pstep; auto using is_perm_pstep. unfold tfun. 
    zc.
  - intros j q Hj Hj' P. apply (perm_ext n); try (apply is_perm_len; auto; repeat apply is_perm_pstep; auto; lia).
    intros i Hi. assert (1 <= j < n) by lia. assert (1 <= j + 1 < n) by lia. 
    rewrite !img_pstep; auto using is_perm_pstep. unfold tfun. 
    zc.
  - intros k j q Hj Hj' Hn P. apply (perm_ext n); try (apply is_perm_len; auto; repeat apply is_perm_pstep; auto; lia).
    intros i Hi. assert (1 <= j < n) by lia. assert (1 <= k < n) by lia. 
    rewrite !img_pstep; auto using is_perm_pstep. unfold tfun. 
    zc.
Qed.

Definition cycf (a n v : Z) : Z := if v =? n then a else if (a <=? v) && (v <? n) then v + 1 else v.

Lemma img_cyc_word n m a q i : is_perm n q -> 1 <= a <= m -> m <= n -> 1 <= i <= n ->
  img (aw (pstep n) (cyc a m) q) i = cycf a m (img q i).
Proof.
  intros P Ha Hm Hi. remember (Z.to_nat (m - a)) as d eqn:Hd. revert a Ha Hd. induction d as [|d IH]; intros a Ha Hd.
  - assert (m = a) as Ema by lia. rewrite (cyc_nil a m) by lia. unfold aw; cbn [fold_left]. unfold cycf. replace m with a by lia.
    destruct (Z.eqb_spec (img q i) a); [auto|]. destruct (Z.leb_spec a (img q i)), (Z.ltb_spec (img q i) a); simpl; lia.
  - rewrite (cyc_split a (a + 1) m) by lia. rewrite aw_app, cyc_one. unfold aw at 1; cbn [fold_left].
    rewrite img_pstep; [|apply (aw_ok eq (is_perm n) (pstep n) n); auto using cox_perm; intros j Hj; apply in_cyc in Hj; lia|lia].
    rewrite (IH (a + 1)) by lia. pose proof (is_perm_img _ _ i P ltac:(lia)). unfold cycf, tfun.
    zc.
Qed.

Lemma pword_value k : forall n p q i, is_perm (Z.of_nat k) p -> Z.of_nat k <= n -> is_perm n q -> 1 <= i <= n ->
  img (aw (pstep n) (pword k p) q) i = (if img q i <=? Z.of_nat k then img p (img q i) else img q i).
Proof.
  induction k as [|k IH]; intros n p q i P Hn Q Hi.
  - cbn [pword]. unfold aw; cbn [fold_left]. pose proof (is_perm_img _ _ i Q Hi). change (Z.of_nat 0) with 0. destruct (Z.leb_spec (img q i) 0); lia.
  - cbn [pword]. rewrite aw_app. replace (Z.of_nat (S k)) with (Z.of_nat k + 1) in * by lia.
    set (m := Z.of_nat k) in *. assert (0 <= m) by lia. assert (is_perm m (prest m p)) as Pr by (apply is_perm_prest; auto).
    fold (cyc (img p (m + 1)) (m + 1)). pose proof (is_perm_img _ _ (m + 1) P ltac:(lia)).
    rewrite img_cyc_word; try lia.
    2:{ apply (aw_ok eq (is_perm n) (pstep n) n); auto using cox_perm. intros j Hj. apply pword_range in Hj; auto. fold m in Hj. lia. }
    rewrite IH by (auto; lia). fold m. pose proof (is_perm_img _ _ i Q Hi). unfold cycf.
    destruct (Z.leb_spec (img q i) m).
    + rewrite img_prest by lia. pose proof (is_perm_img _ _ (img q i) P ltac:(lia)).
      assert (img p (img q i) <> img p (m + 1)) by (intros E; apply (img_inj _ _ _ _ P) in E; lia).
      destruct (Z.leb_spec (img q i) (m + 1)); [|lia]. unfold pdec.
      zc.
    + destruct (Z.eqb_spec (img q i) (m + 1)) as [E|E].
      * rewrite E. destruct (Z.leb_spec (m + 1) (m + 1)); lia.
      * destruct (Z.leb_spec (img q i) (m + 1)); [lia|]. destruct (Z.leb_spec (img p (m + 1)) (img q i)), (Z.ltb_spec (img q i) (m + 1)); simpl; lia.
Qed.

Lemma pword_pid_perm k p : is_perm (Z.of_nat k) p -> aw (pstep (Z.of_nat k)) (pword k p) (pid (Z.of_nat k)) = p.
Proof.
  intros P. set (n := Z.of_nat k) in *. assert (0 <= n) by lia. apply (perm_ext n).
  - apply is_perm_len. apply (aw_ok eq (is_perm n) (pstep n) n); auto using cox_perm, is_perm_pid.
    intros j Hj. apply pword_range in Hj; auto.
  - apply is_perm_len; auto.
  - intros i Hi. rewrite pword_value; auto using is_perm_pid; try (fold n; lia). fold n. rewrite img_pid by lia.
    destruct (Z.leb_spec i n); auto; lia.
Qed.

Section Act.
  Context {X : Type} (eqv : X -> X -> Prop) (ok : X -> Prop) (T : Z -> X -> X).
  Hypothesis eqv_refl : forall x, eqv x x.
  Hypothesis eqv_sym : forall x y, eqv x y -> eqv y x.
  Hypothesis eqv_trans : forall x y z, eqv x y -> eqv y z -> eqv x z.

  (* any word acts as the permutation it multiplies out to *)
  Lemma word_act k w : cox eqv ok T (Z.of_nat k) -> (forall j, In j w -> 1 <= j < Z.of_nat k) -> forall q x, is_perm (Z.of_nat k) q -> ok x ->
    eqv (aw T (pword k (aw (pstep (Z.of_nat k)) w q)) x) (aw T w (aw T (pword k q) x)).
  Proof.
    intros C. set (n := Z.of_nat k) in *. induction w as [|j w IH] using rev_ind; intros H q x Q O; [apply eqv_refl|].
    rewrite !aw_app. unfold aw at 2 4; cbn [fold_left].
    assert (forall i, In i w -> 1 <= i < n) as Hw by (intros; apply H; apply in_app_iff; left; auto).
    assert (1 <= j < n) as Hj by (apply H; apply in_app_iff; right; left; auto).
    assert (is_perm n (aw (pstep n) w q)) as Q' by (apply (aw_ok eq (is_perm n) (pstep n) n); auto using cox_perm).
    eapply eqv_trans; [apply (pword_step eqv ok T eqv_refl eqv_sym eqv_trans k); auto|].
    destruct C as (C1 & C2 & C3). apply C2; auto.
    - apply (aw_ok eqv ok T n); auto; [repeat split; auto; apply C3|]. intros i Hi. apply pword_range in Hi; auto.
    - apply (aw_ok eqv ok T n); auto; [repeat split; auto; apply C3|]. apply (aw_ok eqv ok T n); auto; [repeat split; auto; apply C3|].
      intros i Hi. apply pword_range in Hi; auto.
  Qed.

  Lemma act_mul k p q x : cox eqv ok T (Z.of_nat k) -> is_perm (Z.of_nat k) p -> is_perm (Z.of_nat k) q -> ok x ->
    eqv (aw T (pword k (pmul p q)) x) (aw T (pword k p) (aw T (pword k q) x)).
  Proof.
    intros C P Q O. set (n := Z.of_nat k) in *.
    replace (pmul p q) with (aw (pstep n) (pword k p) q).
    - apply word_act; auto. intros j Hj. apply pword_range in Hj; auto.
    - apply (perm_ext n).
      + apply is_perm_len. apply (aw_ok eq (is_perm n) (pstep n) n); auto using cox_perm. intros j Hj. apply pword_range in Hj; auto.
      + apply is_perm_len. apply is_perm_pmul; auto.
      + intros i Hi. rewrite pword_value by (auto; fold n; lia). fold n. pose proof (is_perm_img _ _ i Q Hi).
        rewrite img_pmul by (rewrite (is_perm_len _ _ Q); lia). destruct (Z.leb_spec (img q i) n); auto; lia.
  Qed.

  Lemma act_word k w x : cox eqv ok T (Z.of_nat k) -> (forall j, In j w -> 1 <= j < Z.of_nat k) -> ok x ->
    eqv (aw T w x) (aw T (pword k (aw (pstep (Z.of_nat k)) w (pid (Z.of_nat k)))) x).
  Proof.
    intros C H O. apply eqv_sym. eapply eqv_trans; [apply word_act; auto; apply is_perm_pid; lia|]. rewrite pword_pid. apply eqv_refl.
  Qed.

  Lemma act_pid k x : aw T (pword k (pid (Z.of_nat k))) x = x.
  Proof. apply pword_pid. Qed.
End Act.
