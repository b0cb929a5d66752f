(* Every permutation has exactly one cycle type. *)
From Coq Require Import ZArith List Bool Lia ZifyBool Permutation Arith Sorting.Sorted.
From Verif Require Import Model_Base Model_Sn Model_Perm Model_Comb Model_Class.
From Verif Require Import Spec_Perm Spec_Part Spec_Tab Spec_Rep Spec_Four.
From Verif Require Import Proof_Base Proof_Perm Proof_Sn Proof_Part Proof_PartProps Proof_Schur Proof_Rep Proof_UpDown Proof_Complete Proof_Char Proof_Class Proof_Class2.
Import ListNotations.

Section Exist.
  Variable f : Z -> Z.
  (* the orbit of a point of a finite set on which f is injective *)
  Lemma orbit_closes X x : NoDup X -> (forall y, In y X -> In (f y) X) -> (forall y z, In y X -> In z X -> f y = f z -> y = z) -> In x X -> exists m, iscyc f m x /\ incl (orb f m x) X.
  Proof.
    intros N C I Hx.
    assert (forall i, In (itf f i x) X) as HI by (induction i as [|i IH]; cbn; auto).
    assert (forall m, incl (orb f m x) X) as OI by (intros m y Hy; apply in_orb in Hy as (i & _ & ->); auto).
    assert (exists m, (1 <= m)%nat /\ NoDup (orb f m x) /\ ~ NoDup (orb f (S m) x)) as (m & Hm & N1 & N2).
    { assert (~ NoDup (orb f (S (length X)) x)) as K. { intros H. pose proof (NoDup_incl_length H (OI (S (length X)))). rewrite orb_length in H0. lia. }
      assert (forall k, ~ NoDup (orb f (S k) x) -> exists m, (1 <= m)%nat /\ NoDup (orb f m x) /\ ~ NoDup (orb f (S m) x)) as Q; [|eauto].
      induction k as [|k IH]; intros H; [destruct H; cbn; constructor; auto; constructor|]. destruct (ListDec.NoDup_dec Z.eq_dec (orb f (S k) x)) as [H'|H']; [exists (S k); split; [lia|auto]|auto]. }
    exists m. split; auto. split; auto. split; auto.
    replace (S m) with (m + 1)%nat in N2 by lia. rewrite orb_app in N2. cbn [orb] in N2.
    assert (In (itf f m x) (orb f m x)) as Hin. { destruct (in_dec Z.eq_dec (itf f m x) (orb f m x)) as [H|H]; auto. destruct N2. apply NoDup_app_iff'. split; auto. split; [constructor; auto; constructor|]. intros y Hy [<-|[]]. auto. }
    apply in_orb in Hin as (j & Hj & E). destruct j as [|j]; auto. exfalso. destruct m as [|m]; [lia|].
    assert (itf f (S m - 0) x = itf f (S j) x) as E' by (rewrite Nat.sub_0_r; auto). clear E'.
    cbn [itf] in E. apply I in E; auto. 
    assert (nth m (orb f (S m) x) 0%Z = nth j (orb f (S m) x) 0%Z) as E2 by (rewrite !orb_nth by lia; auto). apply NoDup_nth in E2; auto; rewrite ?orb_length; lia.
  Qed.

  Lemma cycles_exist k : forall X, (length X <= k)%nat -> NoDup X -> (forall y, In y X -> In (f y) X) -> (forall y z, In y X -> In z X -> f y = f z -> y = z) -> exists cs, Permutation (concat cs) X /\ Forall (cyclist f) cs.
  Proof.
    induction k as [|k IH]; intros X L N C I.
    - destruct X; [|cbn in L; lia]. exists []. split; constructor.
    - destruct X as [|x X0]; [exists []; split; constructor|]. set (X := x :: X0) in *. destruct (orbit_closes X x N C I (or_introl eq_refl)) as (m & Cy & IN).
      pose proof Cy as (M1 & M2 & M3).
      assert (forall y, In (f y) (orb f m x) -> In y X -> In y (orb f m x)) as BACK.
      { intros y Hy HyX. apply in_orb in Hy as (i & Hi & E). destruct i as [|i].
        - cbn in E. rewrite <- M3 in E. destruct m as [|m]; [lia|]. cbn [itf] in E. apply I in E; auto; [|apply IN, in_orb; exists m; split; [lia|auto]]. apply in_orb. exists m. split; [lia|auto].
        - cbn [itf] in E. apply I in E; auto; [|apply IN, in_orb; exists i; split; [lia|auto]]. apply in_orb. exists i. split; [lia|auto]. }
      assert (Permutation (orb f m x ++ lminus X (orb f m x)) X) as P by (apply lminus_perm; auto).
      destruct (IH (lminus X (orb f m x))) as (cs & Pc & Fc).
      + apply Permutation_length in P. rewrite app_length, orb_length in P. lia.
      + apply lminus_nodup; auto.
      + intros y Hy. apply (in_lminus f) in Hy as (A & B). apply (in_lminus f). split; auto.
      + intros y z Hy Hz. apply (in_lminus f) in Hy as (A & _). apply (in_lminus f) in Hz as (B & _). auto.
      + exists (orb f m x :: cs). split; [cbn; eapply perm_trans; [apply Permutation_app_head; exact Pc|exact P]|]. constructor; auto. exists x. rewrite orb_length. auto.
  Qed.
End Exist.

Lemma sort_by_len (cs : list (list Z)) : exists cs', Permutation cs' cs /\ StronglySorted Z.ge (map zl cs').
Proof.
  induction cs as [|c cs (cs' & P & S)]; [exists []; split; constructor|].
  assert (exists cs2, Permutation cs2 (c :: cs') /\ StronglySorted Z.ge (map zl cs2)) as (cs2 & P2 & S2).
  { clear P. revert c. induction cs' as [|d cs' IH]; intros c; [exists [c]; split; [auto|repeat constructor]|]. cbn in S. inversion S; subst. destruct (Z_ge_lt_dec (zl c) (zl d)) as [H|H].
    - exists (c :: d :: cs'). split; auto. cbn. constructor; auto. constructor; auto. eapply Forall_impl; [|exact H2]. intros a; lia.
    - destruct (IH H1 c) as (cs2 & P2 & S2). exists (d :: cs2). split; [eapply perm_trans; [apply perm_skip; exact P2|apply perm_swap]|]. cbn. constructor; auto. apply Forall_forall. intros y Hy. apply (Permutation_in _ (Permutation_map zl P2)) in Hy. destruct Hy as [<-|Hy]; [lia|]. rewrite Forall_forall in H2. auto. }
  exists cs2. split; auto. eapply perm_trans; [exact P2|]. apply perm_skip; auto.
Qed.

Lemma Permutation_concat' {A} (a b : list (list A)) : Permutation a b -> Permutation (concat a) (concat b).
Proof. intros H. induction H; cbn; auto. - apply Permutation_app_head; auto. - rewrite !app_assoc. apply Permutation_app_tail, Permutation_app_comm. - eapply perm_trans; eauto. Qed.

Open Scope Z_scope.
Lemma zsum_map_zl cs : zsum (map zl cs) = zlen (concat cs).
Proof. symmetry. apply zlen_concat_zl. Qed.

Lemma type_exists n p : is_perm n p -> exists mu, is_part n mu /\ cycle_type n p mu.
Proof.
  intros P. pose proof (is_perm_nonneg n p P) as Hn.
  destruct (cycles_exist (img p) (length (pts n)) (pts n)) as (cs & Pc & F); [lia|apply pts_nodup| | |].
  { intros y. rewrite !in_pts. intros H. apply is_perm_img; auto. }
  { intros y z. rewrite !in_pts. intros H H' E. eapply img_inj; eauto. }
  destruct (sort_by_len cs) as (cs' & Ps & S). exists (map zl cs').
  assert (is_perm n (concat cs')) as PC. { apply perm_pts. split; auto. eapply perm_trans; [apply Permutation_concat'; exact Ps|exact Pc]. }
  assert (Forall (cyclist (img p)) cs') as F'. { apply Forall_forall. intros c Hc. rewrite Forall_forall in F. apply F. eapply Permutation_in; eauto. }
  split; [split; [|split; auto]|].
  - intros x Hx. apply in_map_iff in Hx as (c & <- & Hc). rewrite Forall_forall in F'. destruct (F' c Hc) as (y & _ & L & _). unfold zl. lia.
  - rewrite zsum_map_zl. eapply is_perm_len; eauto.
  - split; auto. exists cs'. split; auto. split; auto. apply cyclists_hc; auto.
Qed.

Lemma type_counts n p mu m : ppos mu -> cycle_type n p mu -> 1 <= m -> Z.of_nat (nsum (map (fun x => if onX_dec (img p) (pts n) (Z.to_nat m) x then 1%nat else 0%nat) (pts n))) = m * occ m mu.
Proof.
  intros Pm (P & cs & (Pc & H) & L) Hm. pose proof Pc as (_ & _ & N). apply perm_pts in Pc as (Hn & Pc). pose proof (lens_tn cs mu L) as L'.
  assert (Forall (cyclist (img p)) cs) as F. { apply hc_cyclists; auto. rewrite L'. unfold tn. apply Forall_map, Forall_forall. intros x Hx. pose proof (Pm x Hx). lia. }
  assert (nsum (map (fun x => if onX_dec (img p) (pts n) (Z.to_nat m) x then 1%nat else 0%nat) (pts n)) = nsum (map (fun x => if onX_dec (img p) (concat cs) (Z.to_nat m) x then 1%nat else 0%nat) (concat cs))) as ->.
  { rewrite (nsum_perm _ _ (Permutation_map _ (Permutation_sym Pc))). f_equal. apply map_ext. intros x. assert (onX (img p) (pts n) (Z.to_nat m) x <-> onX (img p) (concat cs) (Z.to_nat m) x) as Q by (unfold onX; split; intros (A & B); split; auto; intros y Hy; eapply Permutation_in; [|apply B; auto| |apply B; auto]; auto using Permutation_sym). destruct (onX_dec _ (pts n) _ x), (onX_dec _ (concat cs) _ x); tauto. }
  rewrite hits; auto.
  - unfold lens in L'. rewrite L', count_tn by auto. unfold occ. nia.
  - intros x Hx. split; [intros (A & _); auto|]. intros A. split; auto. apply in_concat in Hx as (c & Hc & Hx). rewrite Forall_forall in F. destruct (cyclist_at _ c x (F c Hc) Hx) as (B & C). rewrite (iscyc_unique _ _ _ _ A B). intros y Hy. apply in_concat. exists c. split; auto. eapply Permutation_in; eauto.
Qed.

Lemma sorted_perm_eq (a b : list Z) : StronglySorted Z.ge a -> StronglySorted Z.ge b -> Permutation a b -> a = b.
Proof.
  revert b. induction a as [|x a IH]; intros [|y b] SA SB P; auto; [apply Permutation_nil in P; discriminate|apply Permutation_sym, Permutation_nil in P; discriminate|]. inversion SA; subst. inversion SB; subst. rewrite Forall_forall in H2, H4.
  assert (x = y) as ->. { assert (In x (y :: b)) as A by (eapply Permutation_in; [exact P|cbn; auto]). assert (In y (x :: a)) as B by (eapply Permutation_in; [apply Permutation_sym; exact P|cbn; auto]). destruct A as [A|A]; auto. destruct B as [B|B]; auto. pose proof (H2 _ B). pose proof (H4 _ A). lia. }
  f_equal. apply IH; auto. eapply Permutation_cons_inv; eauto.
Qed.

Lemma type_unique n p mu mu' : is_part n mu -> is_part n mu' -> cycle_type n p mu -> cycle_type n p mu' -> mu = mu'.
Proof.
  intros P P' C C'. pose proof (is_part_ppos n mu P) as PP. pose proof (is_part_ppos n mu' P') as PP'. apply sorted_perm_eq; [apply P|apply P'|]. apply (Permutation_count_occ Z.eq_dec). intros m. destruct (Z_lt_le_dec m 1) as [H|H].
  - rewrite !(proj1 (count_occ_not_In Z.eq_dec _ m)); auto; intros Hi; [apply PP' in Hi|apply PP in Hi]; lia.
  - pose proof (type_counts n p mu m PP C H) as A. pose proof (type_counts n p mu' m PP' C' H) as B. rewrite A in B. unfold occ in B. nia.
Qed.

(* the classes cut the group into disjoint pieces *)
Definition is_class (n : Z) (mu : list Z) (K : list (list Z)) : Prop := NoDup K /\ forall p, In p K <-> cycle_type n p mu.

Lemma classes_of n ls : Forall (is_part n) ls -> exists Ks, Forall2 (is_class n) ls Ks.
Proof.
  induction 1 as [|mu ls H F (Ks & IH)]; [exists []; constructor|]. destruct (class_list n mu) as (K & HK); [eapply is_part_ppos; eauto|apply H|]. exists (K :: Ks). constructor; auto.
Qed.

Lemma classes_disjoint n ls Ks : NoDup ls -> Forall (is_part n) ls -> Forall2 (is_class n) ls Ks -> NoDup (concat Ks) /\ forall p, In p (concat Ks) <-> exists mu, In mu ls /\ cycle_type n p mu.
Proof.
  intros N F H. revert N F. induction H as [|mu K ls Ks (NK & HK) H IH]; intros N F; cbn.
  - split; [constructor|]. intros p. split; [tauto|intros (mu & [] & _)].
  - inversion N; subst. inversion F; subst. destruct (IH H3 H5) as (A & B). split.
    + apply NoDup_app_iff'. split; auto. split; auto. intros p Hp Hq. apply HK in Hp. apply B in Hq as (mu' & Hm & Hq). rewrite Forall_forall in H5. pose proof (type_unique n p mu mu' H4 (H5 mu' Hm) Hp Hq). subst mu'. auto.
    + intros p. rewrite in_app_iff, HK, B. split.
      * intros [Hp|(mu' & Hm & Hp)]; [exists mu; auto|exists mu'; auto].
      * intros (mu' & [<-|Hm] & Hp); [auto|right; exists mu'; auto].
Qed.

Lemma plist_parts n : 1 <= n -> NoDup (plist (Z.to_nat (n - 1))) /\ forall l, In l (plist (Z.to_nat (n - 1))) <-> is_part n l.
Proof. intros Hn. split; [apply NoDup_plist|]. intros l. rewrite plist_spec. replace (Z.of_nat (Z.to_nat (n - 1)) + 1) with n by lia. tauto. Qed.

Lemma classes_group n ls Ks : 1 <= n -> NoDup ls -> (forall l, In l ls <-> is_part n l) -> Forall2 (is_class n) ls Ks -> lists_Sn n (concat Ks).
Proof.
  intros Hn N I H. destruct (classes_disjoint n ls Ks N (proj2 (Forall_forall _ _) (fun l Hl => proj1 (I l) Hl)) H) as (A & B). split; auto. intros p. rewrite B. split; [intros (mu & _ & Q & _); auto|]. intros P. destruct (type_exists n p P) as (mu & Hm & C). exists mu. split; auto. apply I; auto.
Qed.

(* a permutation has one and only one class among the listed ones *)
Lemma one_class n p : is_perm n p -> exists mu, is_part n mu /\ cycle_type n p mu /\ forall mu', is_part n mu' -> cycle_type n p mu' -> mu' = mu.
Proof. intros P. destruct (type_exists n p P) as (mu & Hm & C). exists mu. split; auto. split; auto. intros mu' H' C'. eapply type_unique; eauto. Qed.


Lemma class_sizes_add n ls cs : 1 <= n -> NoDup ls -> (forall l, In l ls <-> is_part n l) -> Forall2 (fun l c => class_size n l = Ret c) ls cs -> zsum cs = zfact n.
Proof.
  intros Hn N I H. assert (Forall (is_part n) ls) as F by (apply Forall_forall; intros l; apply I). destruct (classes_of n ls F) as (Ks & HK). pose proof (classes_group n ls Ks Hn N I HK) as G. rewrite <- (lists_Sn_len n _ ltac:(lia) G). clear G N I. revert Ks HK F. induction H as [|l c ls cs H HH IH]; intros Ks HK F; inversion HK; subst; [reflexivity|]. inversion F; subst. cbn [zsum concat]. rewrite zlen_app. destruct H2 as (N2 & H2). rewrite (class_size_counts n l y H3 Hn N2 H2) in H. injection H as <-. change (zsum (Z.of_nat (length y) :: cs)) with (Z.of_nat (length y) + zsum cs). unfold zlen at 1. f_equal. apply IH; auto.
Qed.

(* conjugate permutations are those with the same cycle type *)
Lemma conj_type n p q s mu : is_perm n q -> is_perm n s -> (forall x, 1 <= x <= n -> img s (img p x) = img q (img s x)) -> cycle_type n p mu -> cycle_type n q mu.
Proof.
  intros Q Hs C (P & cs & (Pc & H) & L). split; auto. exists (map (map (img s)) cs). split; [split|].
  - rewrite <- concat_map. change (map (img s) (concat cs)) with (map (fun i => img s i) (concat cs)). pose proof (is_perm_pmul n s (concat cs) Hs Pc) as K. replace (map (fun i => img s i) (concat cs)) with (pmul s (concat cs)); auto.
  - intros c k Hc Hk. apply in_map_iff in Hc as (c0 & <- & Hc). rewrite map_length in *.
    assert (forall j, (j < length c0)%nat -> 1 <= nth j c0 0 <= n) as R. { intros j Hj. pose proof Pc as (_ & F & _). apply F. apply in_concat. exists c0. split; auto. apply nth_In; auto. }
    assert (forall j, (j < length c0)%nat -> nth j (map (img s) c0) 0 = img s (nth j c0 0)) as E. { intros j Hj. rewrite (nth_indep _ 0 (img s 0)) by (rewrite map_length; auto). apply map_nth. }
    rewrite E by auto. rewrite <- C by auto. rewrite (H c0 k Hc Hk). rewrite E; auto. destruct (Nat.eq_dec (S k) (length c0)); lia.
  - rewrite map_map. rewrite <- L. apply map_ext. intros c. rewrite map_length. auto.
Qed.

Lemma conj_iff n p q : is_perm n p -> is_perm n q ->
  ((exists s, is_perm n s /\ forall x, 1 <= x <= n -> img s (img p x) = img q (img s x)) <-> exists mu, is_part n mu /\ cycle_type n p mu /\ cycle_type n q mu).
Proof.
  intros P Q. split.
  - intros (s & Hs & C). destruct (type_exists n p P) as (mu & Hm & T). exists mu. split; auto. split; auto. eapply conj_type; eauto.
  - intros (mu & Hm & T & T'). pose proof (is_part_ppos n mu Hm) as PP. destruct (cycle_type_conj n p mu T PP) as (a & A & Sm & EA). destruct (cycle_type_conj n q mu T' PP) as (b & B & _ & EB).
    exists (pmul b (pinv a)). pose proof (is_perm_pinv n a A) as A'. split; [apply is_perm_pmul; auto|]. intros x Hx.
    set (c := pw n (cw 1 mu)) in *.
    assert (forall y, 1 <= y <= n -> img p (img a y) = img a (img c y)) as E1. { intros y Hy. rewrite <- !img_pmul by (rewrite ?(is_perm_len n); auto; lia). rewrite EA. apply img_pmul. rewrite <- (is_perm_len n (pmul p a)) in Hy by (apply is_perm_pmul; auto). rewrite EA in Hy. unfold pmul in Hy. rewrite zlen_map in Hy. auto. }
    assert (forall y, 1 <= y <= n -> img q (img b y) = img b (img c y)) as E2. { intros y Hy. rewrite <- !img_pmul by (rewrite ?(is_perm_len n); auto; lia). rewrite EB. apply img_pmul. rewrite <- (is_perm_len n (pmul q b)) in Hy by (apply is_perm_pmul; auto). rewrite EB in Hy. unfold pmul in Hy. rewrite zlen_map in Hy. auto. }
    pose proof (img_pinv_range n a x A Hx) as Rx. pose proof (is_perm_img n p x P Hx) as Rp.
    rewrite !img_pmul by (rewrite (is_perm_len n); auto). rewrite E2 by auto. f_equal.
    assert (img p x = img a (img c (img (pinv a) x))) as -> by (rewrite <- E1, (img_pinv_r n) by auto; auto). apply (img_pinv_l n); auto. 
    assert (1 <= img p (img a (img (pinv a) x)) <= n) as Z by (rewrite (img_pinv_r n); auto).
    assert (is_perm n c) as Pc by (unfold c; apply is_perm_pw; [|intros j Hj; apply (in_cw n mu 1 j); auto; lia]; auto; apply (is_perm_nonneg n p P)). apply is_perm_img; auto.
Qed.
