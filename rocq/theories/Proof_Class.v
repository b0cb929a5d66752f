(* Counting the permutations of a cycle type. *)
From Coq Require Import ZArith List Bool Lia Permutation ListDec Arith.
From Verif Require Import Model_Base.
From Verif Require Import Proof_Base.
Import ListNotations.

Lemma NoDup_app_iff' {A} (l l' : list A) : NoDup (l ++ l') <-> NoDup l /\ NoDup l' /\ forall x, In x l -> ~ In x l'.
Proof.
  induction l as [|a l IH]; cbn; [split; [intros H; split; [constructor|split; auto]|tauto]|]. rewrite !NoDup_cons_iff, IH, in_app_iff. split.
  - intros (H1 & B & C & D). repeat split; auto. intros x [<-|Hx]; auto.
  - intros ((H1 & B) & C & D). repeat split; auto. intros [H|H]; auto. exact (D a (or_introl eq_refl) H).
Qed.

Section Count.
  Variable f : Z -> Z.

  Fixpoint itf (m : nat) (x : Z) : Z := match m with O => x | S m => f (itf m x) end.
  Fixpoint orb (m : nat) (x : Z) : list Z := match m with O => [] | S m => x :: orb m (f x) end.
  Lemma orb_length m x : length (orb m x) = m.
  Proof. revert x. induction m as [|m IH]; intros x; cbn; auto. Qed.
  Lemma iter_shift m x : itf m (f x) = f (itf m x).
  Proof. induction m as [|m IH]; cbn; congruence. Qed.
  Lemma orb_app i j x : orb (i + j) x = orb i x ++ orb j (itf i x).
  Proof. revert x. induction i as [|i IH]; intros x; auto. cbn [plus orb app]. rewrite IH, iter_shift. auto. Qed.
  Lemma in_orb m x y : In y (orb m x) <-> exists i, (i < m)%nat /\ y = itf i x.
  Proof.
    revert x. induction m as [|m IH]; intros x; cbn [orb In]; [split; [tauto|intros (i & H & _); lia]|]. rewrite IH. split.
    - intros [<-|(i & H & ->)]; [exists 0%nat; split; [lia|auto]|]. exists (S i). split; [lia|]. rewrite iter_shift. auto.
    - intros ([|i] & H & ->); auto. right. exists i. split; [lia|]. rewrite iter_shift. auto.
  Qed.
  Lemma iter_add i j x : itf (i + j) x = itf i (itf j x).
  Proof. induction i as [|i IH]; cbn; congruence. Qed.

  Definition iscyc (m : nat) (x : Z) : Prop := (1 <= m)%nat /\ NoDup (orb m x) /\ itf m x = x.
  Definition onX (X : list Z) (m : nat) (x : Z) : Prop := iscyc m x /\ incl (orb m x) X.
  Lemma onX_dec X m x : {onX X m x} + {~ onX X m x}.
  Proof.
    unfold onX, iscyc. destruct (le_dec 1 m); [|right; tauto]. destruct (NoDup_dec Z.eq_dec (orb m x)); [|right; tauto]. destruct (Z.eq_dec (itf m x) x); [|right; tauto].
    destruct (incl_dec Z.eq_dec (orb m x) X); [left|right]; tauto.
  Qed.

  Lemma iscyc_rot m x y : iscyc m x -> In y (orb m x) -> iscyc m y /\ Permutation (orb m y) (orb m x).
  Proof.
    intros (H & N & E) Hy. apply in_orb in Hy as (i & Hi & ->).
    assert (orb m (itf i x) = orb (m - i) (itf i x) ++ orb i x) as A.
    { replace m with ((m - i) + i)%nat at 1 by lia. rewrite orb_app, <- iter_add. replace (m - i + i)%nat with m by lia. rewrite E. auto. }
    assert (orb m x = orb i x ++ orb (m - i) (itf i x)) as B. { replace m with (i + (m - i))%nat at 1 by lia. apply orb_app. }
    assert (Permutation (orb m (itf i x)) (orb m x)) as P by (rewrite A, B; apply Permutation_app_comm).
    split; auto. split; auto. split; [eapply Permutation_NoDup; [apply Permutation_sym; exact P|auto]|]. rewrite <- iter_add, Nat.add_comm, iter_add, E. auto.
  Qed.

  Lemma iscyc_unique m m' x : iscyc m x -> iscyc m' x -> m = m'.
  Proof.
    assert (forall a b, iscyc a x -> iscyc b x -> (a < b)%nat -> False) as K.
    { intros a b (A1 & A2 & A3) (B1 & B2 & B3) L. assert (orb b x = orb a x ++ orb (b - a) x) as E. { replace b with (a + (b - a))%nat at 1 by lia. rewrite orb_app, A3. auto. }
      rewrite E in B2. destruct a as [|a]; [lia|]. destruct (b - S a)%nat as [|d] eqn:D; [lia|]. cbn in B2. inversion B2 as [|? ? NI]; subst. apply NI. apply in_or_app. right. cbn. auto. }
    intros A B. destruct (Nat.lt_trichotomy m m') as [L|[L|L]]; auto; [destruct (K m m')|destruct (K m' m)]; auto.
  Qed.

  Definition lminus (X Y : list Z) : list Z := filter (fun x => if in_dec Z.eq_dec x Y then false else true) X.
  Lemma in_lminus X Y x : In x (lminus X Y) <-> In x X /\ ~ In x Y.
  Proof. unfold lminus. rewrite filter_In. destruct (in_dec Z.eq_dec x Y); intuition congruence. Qed.
  Lemma lminus_nodup X Y : NoDup X -> NoDup (lminus X Y).
  Proof. apply NoDup_filter. Qed.
  Lemma lminus_perm X Y W : NoDup X -> incl Y X -> NoDup Y -> (Permutation W (lminus X Y) <-> Permutation (Y ++ W) X).
  Proof.
    intros NX I NY. assert (Permutation (Y ++ lminus X Y) X) as P.
    { apply NoDup_Permutation; auto.
      - apply NoDup_app_iff'. split; auto. split; [apply lminus_nodup; auto|]. intros x Hx Hx'. apply in_lminus in Hx'. tauto.
      - intros x. rewrite in_app_iff, in_lminus. split; [intros [H|H]; [auto|tauto]|]. intros H. destruct (in_dec Z.eq_dec x Y); auto. }
    split.
    - intros H. eapply perm_trans; [apply Permutation_app_head; exact H|auto].
    - intros H. apply (Permutation_app_inv_l Y). eapply perm_trans; [exact H|apply Permutation_sym; auto].
  Qed.

  Fixpoint enum (mu : list nat) (X : list Z) : list (list Z) :=
    match mu with
    | [] => match X with [] => [[]] | _ => [] end
    | m :: mu => flat_map (fun x => if onX_dec X m x then map (app (orb m x)) (enum mu (lminus X (orb m x))) else []) X
    end.
  Fixpoint good (mu : list nat) (w : list Z) : Prop :=
    match mu with [] => w = [] | m :: mu => exists x w', w = orb m x ++ w' /\ iscyc m x /\ good mu w' end.

  Lemma enum_in mu : forall X w, NoDup X -> (In w (enum mu X) <-> Permutation w X /\ good mu w).
  Proof.
    induction mu as [|m mu IH]; intros X w N.
    - cbn. destruct X as [|x X]; cbn; split.
      + intros [<-|[]]. auto.
      + intros (_ & ->). auto.
      + tauto.
      + intros (P & ->). apply Permutation_nil in P. discriminate.
    - cbn [enum good]. rewrite in_flat_map. split.
      + intros (x & Hx & H). destruct (onX_dec X m x) as [(C & I)|]; [|contradiction]. apply in_map_iff in H as (w' & <- & H). apply IH in H as (P & G); [|apply lminus_nodup; auto]. split; [apply lminus_perm; auto; apply C|]. exists x, w'. auto.
      + intros (P & x & w' & -> & C & G). assert (incl (orb m x) X) as I by (intros y Hy; eapply Permutation_in; [exact P|]; apply in_or_app; auto).
        exists x. assert (In x (orb m x)) as Hx by (destruct C as (C & _); destruct m; [lia|cbn; auto]). split; [auto|]. destruct (onX_dec X m x) as [|NC]; [|destruct NC; split; auto]. apply in_map. apply IH; [apply lminus_nodup; auto|]. split; auto. apply lminus_perm; auto. apply C.
  Qed.

  Lemma NoDup_map_app (a : list Z) ws : NoDup ws -> NoDup (map (app a) ws).
  Proof. intros H. apply FinFun.Injective_map_NoDup; auto. intros x y E. apply app_inv_head in E. auto. Qed.

  Lemma enum_nodup mu : forall X, NoDup X -> NoDup (enum mu X).
  Proof.
    induction mu as [|m mu IH]; intros X N; cbn [enum]; [destruct X; constructor; auto; constructor|].
    assert (forall Y, NoDup Y -> NoDup (flat_map (fun x => if onX_dec X m x then map (app (orb m x)) (enum mu (lminus X (orb m x))) else []) Y)) as K; [|auto].
    induction Y as [|y Y IHY]; intros NY; cbn; [constructor|]. inversion NY; subst. apply NoDup_app_iff'. split; [|split; auto].
    - destruct (onX_dec X m y); [|constructor]. apply NoDup_map_app, IH, lminus_nodup; auto.
    - intros w Hw Hw'. apply in_flat_map in Hw' as (z & Hz & Hw'). destruct (onX_dec X m y) as [((M & _) & _)|]; [|contradiction]. destruct (onX_dec X m z); [|contradiction]. apply in_map_iff in Hw as (a & <- & _). apply in_map_iff in Hw' as (b & E & _). destruct m; [lia|]. cbn in E. injection E as -> _. contradiction.
  Qed.

  Definition cyclist (c : list Z) : Prop := exists x, c = orb (length c) x /\ iscyc (length c) x.
  Lemma cyclist_at c x : cyclist c -> In x c -> iscyc (length c) x /\ Permutation (orb (length c) x) c.
  Proof. intros (y & E & C) H. rewrite E in H. pose proof (iscyc_rot _ _ _ C H) as (A & B). split; auto. rewrite <- E in B. auto. Qed.

  Definition nsum (l : list nat) : nat := fold_right plus 0%nat l.
  Lemma len_flat_map {A B} (g : A -> list B) l : length (flat_map g l) = nsum (map (fun x => length (g x)) l).
  Proof. induction l as [|x l IH]; auto. cbn. rewrite app_length, IH. auto. Qed.
  Lemma nsum_perm l l' : Permutation l l' -> nsum l = nsum l'.
  Proof. unfold nsum. intros H. induction H; cbn; lia. Qed.
  Lemma nsum_app l l' : nsum (l ++ l') = (nsum l + nsum l')%nat.
  Proof. unfold nsum in *. induction l as [|x l IH]; cbn; lia. Qed.

  Lemma hits m cs v : Forall cyclist cs -> NoDup (concat cs) -> (forall x, In x (concat cs) -> onX (concat cs) m x <-> iscyc m x) ->
    nsum (map (fun x => if onX_dec (concat cs) m x then v else 0%nat) (concat cs)) = (m * count_occ Nat.eq_dec (map (@length Z) cs) m * v)%nat.
  Proof.
    intros F N H. set (X := concat cs) in *.
    assert (forall cs', incl cs' cs -> nsum (map (fun x => if onX_dec X m x then v else 0%nat) (concat cs')) = (m * count_occ Nat.eq_dec (map (@length Z) cs') m * v)%nat) as K; [|apply K, incl_refl].
    induction cs' as [|c cs' IH]; intros I; [cbn; lia|]. cbn [concat map count_occ]. rewrite map_app, nsum_app, IH by (intros y Hy; apply I; cbn; auto).
    assert (In c cs) as Hc by (apply I; cbn; auto). assert (cyclist c) as Cc by (rewrite Forall_forall in F; auto).
    assert (forall x, In x c -> In x X) as IX by (intros x Hx; unfold X; apply in_concat; eauto).
    assert (forall c', incl c' c -> nsum (map (fun x => if onX_dec X m x then v else 0%nat) c') = if Nat.eq_dec (length c) m then (length c' * v)%nat else 0%nat) as Q.
    { induction c' as [|x c' IHc]; intros I'; [cbn; destruct (Nat.eq_dec (length c) m); auto|]. cbn [map nsum fold_right length]. fold (nsum (map (fun x => if onX_dec X m x then v else 0%nat) c')). rewrite IHc by (intros y Hy; apply I'; cbn; auto). destruct (cyclist_at c x Cc (I' x (or_introl eq_refl))) as (A & _). assert (In x X) as Hx by (apply IX, I'; cbn; auto).
      destruct (onX_dec X m x) as [O|O]; destruct (Nat.eq_dec (length c) m) as [E|E]; try lia.
      - destruct E. apply (iscyc_unique _ _ x); auto. apply O.
      - destruct O. apply H; auto. congruence. }
    rewrite Q by apply incl_refl. destruct (Nat.eq_dec (length c) m) as [E|E]; [rewrite E|]; lia.
  Qed.

  Fixpoint zz (mu : list nat) : nat := match mu with [] => 1%nat | m :: mu' => (m * count_occ Nat.eq_dec mu m * zz mu')%nat end.

  Lemma enum_len mu : forall X cs, NoDup X -> Permutation (concat cs) X -> Forall cyclist cs -> Permutation (map (@length Z) cs) mu -> length (enum mu X) = zz mu.
  Proof.
    induction mu as [|m mu IH]; intros X cs N P F L.
    - apply Permutation_sym, Permutation_nil in L. apply map_eq_nil in L. subst cs. cbn in P. apply Permutation_nil in P. subst. auto.
    - cbn [enum zz]. rewrite len_flat_map.
      assert (NoDup (concat cs)) as NC by (eapply Permutation_NoDup; [apply Permutation_sym; exact P|auto]).
      assert (forall x, In x X -> iscyc m x -> exists cs', onX X m x /\ Permutation (concat cs') (lminus X (orb m x)) /\ Forall cyclist cs' /\ Permutation (map (@length Z) cs') mu) as K.
      { intros x Hx C. assert (In x (concat cs)) as Hx' by (eapply Permutation_in; [apply Permutation_sym; exact P|auto]). apply in_concat in Hx' as (c & Hc & Hxc). assert (cyclist c) as Cc by (rewrite Forall_forall in F; auto). destruct (cyclist_at c x Cc Hxc) as (A & B). assert (m = length c) as -> by (apply (iscyc_unique _ _ x); auto).
        apply in_split in Hc as (l1 & l2 & ->). exists (l1 ++ l2).
        assert (Permutation (c ++ concat (l1 ++ l2)) X) as PX. { eapply perm_trans; [|exact P]. rewrite !concat_app. cbn [concat]. rewrite !app_assoc. apply Permutation_app_tail, Permutation_app_comm. }
        assert (incl (orb (length c) x) X) as I by (intros y Hy; eapply Permutation_in; [exact PX|]; apply in_or_app; left; eapply Permutation_in; eauto).
        split; [split; auto|]. split; [|split].
        - apply lminus_perm; auto; [apply A|]. eapply perm_trans; [apply Permutation_app_tail; exact B|exact PX].
        - apply Forall_app in F as (F1 & F2). inversion F2; subst. apply Forall_app. auto.
        - rewrite map_app in *. cbn [map] in L. apply Permutation_sym in L. apply Permutation_cons_app_inv in L. apply Permutation_sym; auto. }
      rewrite (map_ext_in _ (fun x => if onX_dec X m x then zz mu else 0%nat)).
      2:{ intros x Hx. destruct (onX_dec X m x) as [O|O]; auto. rewrite map_length. destruct (K x Hx (proj1 O)) as (cs' & _ & A & B & C). apply (IH _ cs'); auto. apply lminus_nodup; auto. }
      assert (nsum (map (fun x => if onX_dec X m x then zz mu else 0%nat) X) = nsum (map (fun x => if onX_dec (concat cs) m x then zz mu else 0%nat) (concat cs))) as ->.
      { rewrite (nsum_perm _ _ (Permutation_map _ (Permutation_sym P))). f_equal. apply map_ext. intros x. assert (onX X m x <-> onX (concat cs) m x) as Q by (unfold onX; split; intros (A & B); split; auto; intros y Hy; eapply Permutation_in; [|apply B; auto| |apply B; auto]; auto using Permutation_sym). destruct (onX_dec X m x), (onX_dec (concat cs) m x); tauto. }
      rewrite hits; auto.
      + f_equal. f_equal. assert (forall l l' : list nat, Permutation l l' -> count_occ Nat.eq_dec l m = count_occ Nat.eq_dec l' m) as CO by (intros l l' PP; apply (Permutation_count_occ Nat.eq_dec); auto). auto.
      + intros x Hx. split; [intros (A & _); auto|]. intros A. assert (In x X) as Hx' by (eapply Permutation_in; [exact P|auto]). destruct (K x Hx' A) as (_ & (B & C) & _). split; auto. intros y Hy. eapply Permutation_in; [apply Permutation_sym; exact P|auto].
  Qed.
End Count.
