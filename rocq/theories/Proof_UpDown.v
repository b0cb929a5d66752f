(* The dimensions of the irreducible representations: adding a box in all ways multiplies them by n+1, and their squares add up to n!. *)
From Coq Require Import ZArith List Bool Lia ZifyBool ZifyNat Reals Lra Permutation.
From Verif Require Import Model_Base Model_Perm Model_Sn Model_Part Model_Comb Model_Tab Model_Irrep.
From Verif Require Import Spec_Perm Spec_Part Spec_Tab Spec_Rep Spec_Four.
From Verif Require Import Proof_Base Proof_Perm Proof_Sn Proof_Part Proof_PartProps Proof_Tab Proof_TabProps Proof_Cycles Proof_Cox Proof_Yor Proof_Sum
  Proof_Irrep Proof_Rep Proof_Mat Proof_IrrepProps Proof_JM Proof_Conn Proof_Schur Proof_Restr.
Import ListNotations.
Open Scope Z_scope.

(* the rows of l that can take a further box, from the top *)
Definition adds (l : list Z) : list Z := filter (fun i => (i =? 0) || (row l i <? row l (i - 1))) (zrange 0 (zlen l + 1)).

Lemma in_adds l r : In r (adds l) <-> 0 <= r <= zlen l /\ (r = 0 \/ row l r < row l (r - 1)).
Proof. unfold adds. rewrite filter_In, in_zrange. lia. Qed.

Lemma in_adds_row n l r : is_part n l -> (In r (adds l) <-> 0 <= r /\ (r = 0 \/ row l r < row l (r - 1))).
Proof.
  intros P. rewrite in_adds. split; [lia|]. intros (A & B). split; auto. pose proof (zlen_nonneg l).
  destruct B as [B|B]; [lia|]. destruct (Z_le_dec r (zlen l)); [lia|]. rewrite (row_out l (r - 1)) in B by lia. rewrite (row_out l r) in B by lia. lia.
Qed.

Lemma NoDup_adds l : NoDup (adds l).
Proof. apply NoDup_filter. apply NoDup_zrange. Qed.

Lemma adds_corners n l : is_part n l -> Permutation (adds l) (0 :: map (fun r => r + 1) (corners l)).
Proof.
  intros P. apply NoDup_Permutation.
  - apply NoDup_adds.
  - constructor.
    + intros H. apply in_map_iff in H as (r & E & Hr). apply in_corners in Hr. lia.
    + apply NoDup_map_inj_in; [intros; lia|apply NoDup_corners].
  - intros r. rewrite (in_adds_row n l r P). cbn [In]. rewrite in_map_iff. split.
    + intros (A & [B|B]); [left; lia|right]. exists (r - 1). split; [lia|]. apply (in_corners_row n l); auto. replace (r - 1 + 1) with r by lia. split; [|lia].
      destruct (Z.eq_dec r 0) as [->|]; [|lia]. pose proof (is_part_ppos _ _ P) as Q. pose proof (ppos_row_nonneg l 0 Q). unfold row in B, H.
      change (Z.to_nat (0 - 1)) with O in B. change (Z.to_nat 0) with O in B. lia.
    + intros [<-|(q & <- & Hq)]; [lia|]. apply (in_corners_row n l) in Hq; auto. replace (q + 1 - 1) with q by lia. lia.
Qed.

Lemma add_part n l r : is_part n l -> In r (adds l) -> is_part (n + 1) (padd l r).
Proof. intros P H. apply in_adds in H as (A & B). apply is_part_padd; auto. Qed.

Lemma add_row n l r i : is_part n l -> In r (adds l) -> 0 <= i -> row (padd l r) i = row l i + (if i =? r then 1 else 0).
Proof. intros P H Hi. apply in_adds in H as (A & B). apply row_padd; auto. Qed.

Lemma prem_add n l r : is_part n l -> In r (adds l) -> prem (padd l r) r = l.
Proof. intros P H. apply in_adds in H as (A & B). eapply prem_padd; eauto. Qed.

Lemma padd_rem n l r : is_part n l -> In r (corners l) -> padd (prem l r) r = l.
Proof. intros P H. apply in_corners in H as (A & B). eapply padd_prem; eauto. Qed.

Lemma add_corner n l r : is_part n l -> In r (adds l) -> In r (corners (padd l r)).
Proof.
  intros P H. apply (in_corners_row (n + 1)); [eapply add_part; eauto|]. pose proof (proj1 (in_adds l r) H) as (A & B). split; [lia|].
  rewrite !(add_row n) by (auto; lia). pose proof (is_part_step n l r P ltac:(lia)). destruct (Z.eqb_spec (r + 1) r), (Z.eqb_spec r r); lia.
Qed.

Lemma rem_add n l r : is_part n l -> In r (corners l) -> In r (adds (prem l r)).
Proof.
  intros P H. pose proof (corner_part n l r P H) as P'. apply (in_adds_row (n - 1)); auto. pose proof (proj1 (in_corners l r) H) as (A & B).
  split; [lia|]. destruct (prem_extendable n l r P A B); auto.
Qed.

(* moving one box: adding in row r and removing from another row q commute *)
Lemma add_rem_iff n l r q : is_part n l -> r <> q -> (In r (adds l) /\ In q (corners (padd l r)) <-> In q (corners l) /\ In r (adds (prem l q))).
Proof.
  intros P Ne. split.
  - intros (A & B). pose proof (proj1 (in_adds_row n l r P) A) as (Hr & Ar). apply (in_corners_row (n + 1)) in B as (Hq & B); [|eapply add_part; eauto].
    rewrite !(add_row n) in B by (auto; lia). destruct (Z.eqb_spec q r); [lia|].
    assert (In q (corners l)) as Cq. { apply (in_corners_row n); auto. split; auto. destruct (q + 1 =? r); lia. }
    split; auto. apply (in_adds_row (n - 1)); [eapply corner_part; eauto|]. split; auto. destruct (Z.eq_dec r 0); [auto|right].
    rewrite !(corner_row n) by (auto; lia). destruct (Z.eqb_spec r q), (Z.eqb_spec (r - 1) q), (Z.eqb_spec (q + 1) r); subst; try lia.
    replace (r - 1 + 1) with r in B by lia. lia.
  - intros (A & B). pose proof (proj1 (in_corners_row n l q P) A) as (Hq & Aq). apply (in_adds_row (n - 1)) in B as (Hr & B); [|eapply corner_part; eauto].
    assert (In r (adds l)) as Cr.
    { apply (in_adds_row n); auto. split; auto. destruct B as [B|B]; [auto|]. destruct (Z.eq_dec r 0); [auto|right]. rewrite !(corner_row n) in B by (auto; lia).
      destruct (Z.eqb_spec r q), (Z.eqb_spec (r - 1) q); lia. }
    split; auto. apply (in_corners_row (n + 1)); [eapply add_part; eauto|]. split; auto. rewrite !(add_row n) by (auto; lia).
    destruct (Z.eqb_spec q r), (Z.eqb_spec (q + 1) r) as [E|E]; subst; try lia.
    destruct B as [B|B]; [lia|]. rewrite !(corner_row n) in B by (auto; lia). replace (q + 1 - 1) with q in B by lia.
    destruct (Z.eqb_spec (q + 1) q), (Z.eqb_spec q q); lia.
Qed.

Lemma add_rem_eq n l r q : is_part n l -> r <> q -> In r (adds l) -> In q (corners (padd l r)) -> prem (padd l r) q = padd (prem l q) r.
Proof.
  intros P Ne A B. pose proof (proj1 (add_rem_iff n l r q P Ne) (conj A B)) as (C & D). pose proof (add_part n l r P A) as P1. pose proof (corner_part n l q P C) as P2.
  pose proof (proj1 (in_adds _ _) A). apply ppos_ext.
  - apply (is_part_ppos (n + 1 - 1)). eapply corner_part; eauto.
  - apply (is_part_ppos (n - 1 + 1)). eapply add_part; eauto.
  - intros i Hi. rewrite (corner_row (n + 1)), (add_row n), (add_row (n - 1)), (corner_row n) by auto. lia.
Qed.

(* sums over sublists as sums with an indicator *)
Lemma lsum_filter {A} (b : A -> bool) l (f : A -> R) : lsum (filter b l) f = lsum l (fun x => if b x then f x else 0%R).
Proof. induction l as [|x l IH]; [reflexivity|]. cbn [filter]. rewrite (lsum_cons x l). destruct (b x); [rewrite lsum_cons|]; rewrite IH; lra. Qed.

Lemma lsum_indicator {A} (dec : forall x y : A, {x = y} + {x <> y}) (l L : list A) (f : A -> R) : NoDup l -> NoDup L -> (forall x, In x l -> In x L) ->
  lsum l f = lsum L (fun x => if in_dec dec x l then f x else 0%R).
Proof.
  intros N N' H. rewrite <- (lsum_ext L (fun x => if (if in_dec dec x l then true else false) then f x else 0%R)).
  2:{ intros x _. destruct (in_dec dec x l); auto. }
  rewrite <- lsum_filter. apply lsum_Permutation. apply NoDup_Permutation; [auto|apply NoDup_filter; auto|].
  intros x. rewrite filter_In. destruct (in_dec dec x l); split; try tauto; [auto|]. intros (_ & K). discriminate K.
Qed.

Lemma lsum_bij {A B} (l : list A) (l' : list B) (g : A -> B) (f : B -> R) : NoDup l -> NoDup l' -> (forall x, In x l -> In (g x) l') ->
  (forall x y, In x l -> In y l -> g x = g y -> x = y) -> (forall y, In y l' -> exists x, In x l /\ g x = y) -> lsum l (fun x => f (g x)) = lsum l' f.
Proof.
  intros N N' I J S. rewrite <- lsum_map. apply lsum_Permutation. apply NoDup_Permutation; [apply NoDup_map_inj_in; auto|auto|].
  intros y. rewrite in_map_iff. split; [intros (x & <- & Hx); auto|]. intros Hy. destruct (S y Hy) as (x & Hx & E). eauto.
Qed.

Open Scope R_scope.

(* the dimension *)
Definition dimR (n : Z) (l : list Z) : R := IZR (io_d (mkirr n l)).

Lemma IZR_zsum {A} (f : A -> Z) l : IZR (zsum (map f l)) = lsum l (fun x => IZR (f x)).
Proof. induction l as [|x l IH]; [reflexivity|]. cbn [map]. rewrite lsum_cons, <- IH, <- plus_IZR. reflexivity. Qed.

Lemma dimR_down n l : is_part n l -> (2 <= n)%Z -> dimR n l = lsum (corners l) (fun r => dimR (n - 1) (prem l r)).
Proof.
  intros P Hn. unfold dimR. rewrite (d_blocks n l _ ltac:(lia) (proj2 (mkirr_ok n l P ltac:(lia)))). unfold ds. apply IZR_zsum.
Qed.

Lemma zlen_padd l r : (0 <= r <= zlen l)%Z -> (zlen (padd l r) <= zlen l + 1)%Z.
Proof. intros H. unfold padd. destruct (Z.ltb_spec r (zlen l)); [rewrite zlen_zupd by lia; lia|rewrite zlen_app; unfold zlen at 2; cbn [length]; lia]. Qed.

Lemma lsum_remove {A} (dec : forall x y : A, {x = y} + {x <> y}) l x (f : A -> R) : NoDup l -> In x l ->
  lsum l f = f x + lsum l (fun y => if dec y x then 0 else f y).
Proof.
  intros N I. assert (lsum l (fun y => if dec y x then f y else 0) = f x) as E.
  { rewrite (lsum_single l x); auto; [destruct (dec x x); [auto|contradiction]|]. intros y _ Ny. destruct (dec y x); [contradiction|auto]. }
  rewrite <- E, <- lsum_plus. apply lsum_ext. intros y _. destruct (dec y x); ring.
Qed.

Lemma updown k : forall l, is_part (Z.of_nat k + 1) l ->
  lsum (adds l) (fun r => dimR (Z.of_nat k + 1 + 1) (padd l r)) = IZR (Z.of_nat k + 1 + 1) * dimR (Z.of_nat k + 1) l.
Proof.
  induction k as [|k IH]; intros l P.
  - assert (l = [1%Z]) as ->. { pose proof (proj2 (plist_spec 0 l) P) as I. cbn in I. destruct I as [<-|[]]; auto. }
    unfold dimR. vm_compute (adds [1%Z]). rewrite !lsum_cons, lsum_nil.
    replace (io_d (mkirr (Z.of_nat 0 + 1 + 1) (padd [1%Z] 0))) with 1%Z by (vm_compute; reflexivity).
    replace (io_d (mkirr (Z.of_nat 0 + 1 + 1) (padd [1%Z] 1))) with 1%Z by (vm_compute; reflexivity).
    replace (io_d (mkirr (Z.of_nat 0 + 1) [1%Z])) with 1%Z by (vm_compute; reflexivity).
    change (Z.of_nat 0 + 1 + 1)%Z with 2%Z. lra.
  - set (n := (Z.of_nat (S k) + 1)%Z) in *. assert (2 <= n)%Z as Hn by lia. set (K := (zlen l + 2)%Z).
    rewrite (lsum_ext _ _ (fun r => dimR n l + lsum (zrange 0 K) (fun q => if Z.eq_dec r q then 0 else if in_dec Z.eq_dec q (corners (padd l r)) then dimR n (prem (padd l r) q) else 0))).
    2:{ intros r Hr. pose proof (add_part n l r P Hr) as P1. rewrite (dimR_down (n + 1)) by (auto; lia). replace (n + 1 - 1)%Z with n by lia.
        rewrite (lsum_remove Z.eq_dec _ r _ (NoDup_corners _) (add_corner n l r P Hr)), (prem_add n) by auto. f_equal.
        rewrite (lsum_indicator Z.eq_dec _ (zrange 0 K)); [|apply NoDup_corners|apply NoDup_zrange|].
        - apply lsum_ext. intros q _. destruct (Z.eq_dec q r), (Z.eq_dec r q), (in_dec Z.eq_dec q (corners (padd l r))); auto; congruence.
        - intros q Hq. apply in_corners in Hq. apply in_zrange. apply in_adds in Hr. pose proof (zlen_padd l r ltac:(lia)). unfold K. lia. }
    rewrite lsum_plus, lsum_const.
    rewrite (lsum_indicator Z.eq_dec _ (zrange 0 K)); [|apply NoDup_adds|apply NoDup_zrange|].
    2:{ intros r Hr. apply in_adds in Hr. apply in_zrange. unfold K. lia. }
    rewrite (lsum_ext (zrange 0 K) _ (fun r => lsum (zrange 0 K) (fun q => if Z.eq_dec r q then 0 else
       if in_dec Z.eq_dec q (corners l) then if in_dec Z.eq_dec r (adds (prem l q)) then dimR n (padd (prem l q) r) else 0 else 0))).
    2:{ intros r _. destruct (in_dec Z.eq_dec r (adds l)) as [Ir|Nr].
        - apply lsum_ext. intros q _. destruct (Z.eq_dec r q) as [|Ne]; auto. pose proof (add_rem_iff n l r q P Ne) as E.
          destruct (in_dec Z.eq_dec q (corners (padd l r))) as [I1|N1].
          + rewrite (add_rem_eq n) by auto. destruct (in_dec Z.eq_dec q (corners l)), (in_dec Z.eq_dec r (adds (prem l q))); tauto.
          + destruct (in_dec Z.eq_dec q (corners l)), (in_dec Z.eq_dec r (adds (prem l q))); tauto.
        - symmetry. apply lsum_0. intros q _. destruct (Z.eq_dec r q) as [|Ne]; auto. pose proof (add_rem_iff n l r q P Ne) as E.
          destruct (in_dec Z.eq_dec q (corners l)), (in_dec Z.eq_dec r (adds (prem l q))); tauto. }
    rewrite lsum_swap.
    rewrite (lsum_ext (zrange 0 K) _ (fun q => if in_dec Z.eq_dec q (corners l) then IZR n * dimR (n - 1) (prem l q) - dimR n l else 0)).
    2:{ intros q _. destruct (in_dec Z.eq_dec q (corners l)) as [Iq|Nq].
        - pose proof (corner_part n l q P Iq) as P2. replace (n - 1)%Z with (Z.of_nat k + 1)%Z in * by lia. pose proof (IH _ P2) as E.
          replace (Z.of_nat k + 1 + 1)%Z with n in E by lia. rewrite <- E.
          rewrite (lsum_remove Z.eq_dec _ q _ (NoDup_adds _) (rem_add n l q P Iq)), (padd_rem n) by auto.
          rewrite (lsum_indicator Z.eq_dec (adds (prem l q)) (zrange 0 K)); [|apply NoDup_adds|apply NoDup_zrange|].
          + rewrite (lsum_ext (zrange 0 K) _ (fun x : Z => if in_dec Z.eq_dec x (adds (prem l q)) then if Z.eq_dec x q then 0 else dimR n (padd (prem l q) x) else 0)); [lra|].
            intros x _. destruct (Z.eq_dec x q), (in_dec Z.eq_dec x (adds (prem l q))); auto.
          + intros x Hx. apply in_adds in Hx. apply in_zrange. apply in_corners in Iq. pose proof (zlen_prem l q (is_part_ppos _ _ P) ltac:(lia)). unfold K. lia.
        - apply lsum_0. intros x _. destruct (Z.eq_dec x q); auto. }
    rewrite <- (lsum_indicator Z.eq_dec (corners l) (zrange 0 K) (fun q => IZR n * dimR (n - 1) (prem l q) - dimR n l)); [|apply NoDup_corners|apply NoDup_zrange|].
    2:{ intros r Hr. apply in_corners in Hr. apply in_zrange. unfold K. lia. }
    rewrite lsum_minus, lsum_scal, lsum_const, <- (dimR_down n) by auto.
    assert (zlen (adds l) = zlen (corners l) + 1)%Z as E.
    { unfold zlen. rewrite (Permutation_length (adds_corners n l P)). cbn [length]. rewrite map_length. lia. }
    rewrite E, !plus_IZR. ring.
Qed.

(* the pairs (shape, removable box) and (smaller shape, addable box) correspond *)
Lemma NoDup_flat_pairs {A B} (l : list A) (g : A -> list B) : NoDup l -> (forall x, In x l -> NoDup (g x)) -> NoDup (flat_map (fun x => map (pair x) (g x)) l).
Proof.
  intros N H. apply NoDup_flat_map; auto.
  - intros x Hx. apply NoDup_map_inj_in; auto. intros a b _ _ E. congruence.
  - intros x y z _ _ Hx Hy. apply in_map_iff in Hx as (? & <- & _), Hy as (? & E & _). congruence.
Qed.

Lemma NoDup_plist k : NoDup (plist k).
Proof. eapply sorted_NoDup; [apply lex_irrefl|apply plist_sorted]. Qed.

Lemma updown_swap k (F : list Z -> Z -> list Z -> R) :
  lsum (plist (S k)) (fun l => lsum (corners l) (fun q => F l q (prem l q))) = lsum (plist k) (fun m => lsum (adds m) (fun r => F (padd m r) r m)).
Proof.
  set (P1 := flat_map (fun l => map (pair l) (corners l)) (plist (S k))). set (P2 := flat_map (fun l => map (pair l) (adds l)) (plist k)).
  assert (lsum (plist (S k)) (fun l => lsum (corners l) (fun q => F l q (prem l q))) = lsum P1 (fun x => F (fst x) (snd x) (prem (fst x) (snd x)))) as ->.
  { unfold P1. rewrite lsum_flat_map. apply lsum_ext. intros l _. rewrite lsum_map. reflexivity. }
  assert (lsum (plist k) (fun m => lsum (adds m) (fun r => F (padd m r) r m)) = lsum P2 (fun x => F (padd (fst x) (snd x)) (snd x) (fst x))) as ->.
  { unfold P2. rewrite lsum_flat_map. apply lsum_ext. intros l _. rewrite lsum_map. reflexivity. }
  assert (forall x, In x P1 <-> is_part (Z.of_nat (S k) + 1) (fst x) /\ In (snd x) (corners (fst x))) as I1.
  { intros (l, q). unfold P1. rewrite in_flat_map. cbn [fst snd]. rewrite <- plist_spec. split.
    - intros (l' & A & B). apply in_map_iff in B as (q' & E & B). injection E as <- <-. auto.
    - intros (A & B). exists l. split; auto. apply in_map. auto. }
  assert (forall x, In x P2 <-> is_part (Z.of_nat k + 1) (fst x) /\ In (snd x) (adds (fst x))) as I2.
  { intros (l, q). unfold P2. rewrite in_flat_map. cbn [fst snd]. rewrite <- plist_spec. split.
    - intros (l' & A & B). apply in_map_iff in B as (q' & E & B). injection E as <- <-. auto.
    - intros (A & B). exists l. split; auto. apply in_map. auto. }
  rewrite <- (lsum_bij P1 P2 (fun x => (prem (fst x) (snd x), snd x))).
  - apply lsum_ext. intros x Hx. apply I1 in Hx as (A & B). cbn [fst snd]. rewrite (padd_rem _ _ _ A B). reflexivity.
  - apply NoDup_flat_pairs; [apply NoDup_plist|intros; apply NoDup_corners].
  - apply NoDup_flat_pairs; [apply NoDup_plist|intros; apply NoDup_adds].
  - intros x Hx. apply I1 in Hx as (A & B). apply I2. cbn [fst snd]. split; [|eapply rem_add; eauto].
    replace (Z.of_nat k + 1)%Z with (Z.of_nat (S k) + 1 - 1)%Z by lia. eapply corner_part; eauto.
  - intros (l, q) (l', q') Hx Hy E. cbn [fst snd] in E. injection E as E <-. apply I1 in Hx as (A & B), Hy as (A' & B'). cbn [fst snd] in *.
    rewrite <- (padd_rem _ _ _ A B), <- (padd_rem _ _ _ A' B'), E. reflexivity.
  - intros (m, r) Hy. apply I2 in Hy as (A & B). cbn [fst snd] in *. exists (padd m r, r). cbn [fst snd]. split.
    + apply I1. cbn [fst snd]. split; [|eapply add_corner; eauto]. replace (Z.of_nat (S k) + 1)%Z with (Z.of_nat k + 1 + 1)%Z by lia. eapply add_part; eauto.
    + rewrite (prem_add _ _ _ A B). reflexivity.
Qed.

Lemma sum_squares k : lsum (plist k) (fun l => dimR (Z.of_nat k + 1) l * dimR (Z.of_nat k + 1) l) = IZR (zfact (Z.of_nat k + 1)).
Proof.
  induction k as [|k IH].
  - cbn [plist]. rewrite lsum_cons, lsum_nil. unfold dimR. replace (io_d (mkirr (Z.of_nat 0 + 1) [1%Z])) with 1%Z by (vm_compute; reflexivity).
    replace (zfact (Z.of_nat 0 + 1)) with 1%Z by reflexivity. lra.
  - set (n := (Z.of_nat (S k) + 1)%Z) in *.
    rewrite (lsum_ext _ _ (fun l => lsum (corners l) (fun q => dimR n l * dimR (n - 1) (prem l q)))).
    2:{ intros l Hl. apply plist_spec in Hl. fold n in Hl. rewrite lsum_scal. f_equal. apply dimR_down; auto. unfold n; lia. }
    rewrite (updown_swap k (fun l q m => dimR n l * dimR (n - 1) m)).
    rewrite (lsum_ext _ _ (fun m => IZR n * (dimR (n - 1) m * dimR (n - 1) m))).
    2:{ intros m Hm. apply plist_spec in Hm. rewrite lsum_scal_r. pose proof (updown k m Hm) as E. replace (Z.of_nat k + 1 + 1)%Z with n in E by (unfold n; lia).
        rewrite E. replace (n - 1)%Z with (Z.of_nat k + 1)%Z by (unfold n; lia). ring. }
    rewrite lsum_scal. replace (n - 1)%Z with (Z.of_nat k + 1)%Z by (unfold n; lia). rewrite IH, <- mult_IZR. f_equal.
    unfold n, zfact. replace (Z.to_nat (Z.of_nat (S k) + 1)) with (S (S k)) by lia. replace (Z.to_nat (Z.of_nat k + 1)) with (S k) by lia. cbn [zfactn]. replace (Z.of_nat (S (S k))) with (Z.of_nat (S k) + 1)%Z by lia. ring.
Qed.
