(* Completeness of the matrix elements: Fourier inversion on Sn, and the branching identity the inverse transform uses. *)
From Coq Require Import ZArith List Bool Lia ZifyBool ZifyNat Reals Lra Permutation.
From Verif Require Import Model_Base Model_Perm Model_Sn Model_Part Model_Comb Model_Tab Model_Irrep.
From Verif Require Import Spec_Perm Spec_Part Spec_Tab Spec_Rep Spec_Four.
From Verif Require Import Proof_Base Proof_Perm Proof_Sn Proof_Part Proof_PartProps Proof_Tab Proof_TabProps Proof_Cycles Proof_Cox Proof_Yor Proof_Sum
  Proof_Irrep Proof_Rep Proof_Mat Proof_IrrepProps Proof_JM Proof_Conn Proof_Schur Proof_Restr Proof_UpDown.
Import ListNotations.
Open Scope R_scope.

Lemma lsum_nonneg {A} l (f : A -> R) : (forall x, In x l -> 0 <= f x) -> 0 <= lsum l f.
Proof. induction l as [|x l IH]; intros H; rewrite ?lsum_nil, ?lsum_cons; [lra|]. pose proof (H x (or_introl eq_refl)). assert (0 <= lsum l f) by (apply IH; intros; apply H; right; auto). lra. Qed.

Lemma lsum_nonneg_0 {A} l (f : A -> R) : (forall x, In x l -> 0 <= f x) -> lsum l f = 0 -> forall x, In x l -> f x = 0.
Proof.
  induction l as [|y l IH]; intros H E x Hx; [destruct Hx|]. rewrite lsum_cons in E. pose proof (H y (or_introl eq_refl)).
  assert (0 <= lsum l f) by (apply lsum_nonneg; intros; apply H; right; auto).
  destruct Hx as [<-|Hx]; [lra|]. apply IH; auto; [intros; apply H; right; auto|lra].
Qed.

(* as many orthogonal functions as points: they are complete *)
Section Complete.
  Context {A B : Type}.
  Variables (decA : forall x y : A, {x = y} + {x <> y}) (decB : forall x y : B, {x = y} + {x <> y}).
  Variables (L : list A) (Bs : list B) (phi : B -> A -> R) (w : B -> R).
  Hypothesis NL : NoDup L.
  Hypothesis NB : NoDup Bs.
  Hypothesis W : forall b, In b Bs -> w b <> 0.
  Hypothesis O : forall b c, In b Bs -> In c Bs -> lsum L (fun x => phi b x * phi c x) = if decB b c then w b else 0.
  Hypothesis C : zlen L = zlen Bs.

  Let K s t := lsum Bs (fun b => phi b s * phi b t / w b).

  Lemma kernel_sq s : In s L -> lsum L (fun t => (K s t) * (K s t)) = K s s.
  Proof.
    intros Hs. unfold K. rewrite (lsum_ext _ _ (fun t => lsum Bs (fun b => lsum Bs (fun c => (phi b s / w b * (phi c s / w c)) * (phi b t * phi c t))))).
    - rewrite lsum_swap. apply lsum_ext. intros b Hb. rewrite lsum_swap. rewrite (lsum_single _ b); auto.
      + rewrite lsum_scal, O by auto. destruct (decB b b); [|contradiction]. field. auto.
      + intros c Hc Ne. rewrite lsum_scal, O by auto. destruct (decB b c); [congruence|]. ring.
    - intros t _. rewrite <- lsum_scal_r. apply lsum_ext. intros b Hb. rewrite <- lsum_scal. apply lsum_ext. intros c Hc. field. auto.
  Qed.

  Theorem complete s t : In s L -> In t L -> K s t = if decA s t then 1 else 0.
  Proof.
    intros Hs Ht. set (e := fun s t => (if decA s t then 1 else 0) - K s t).
    assert (forall s, In s L -> lsum L (fun t => e s t * e s t) = 1 - K s s) as E.
    { intros x Hx. unfold e. rewrite (lsum_ext _ _ (fun t => (if decA x t then 1 - 2 * K x x else 0) + K x t * K x t)).
      - rewrite lsum_plus, kernel_sq by auto. rewrite (lsum_single _ x); auto.
        + destruct (decA x x); [lra|contradiction].
        + intros y _ Ny. destruct (decA x y); [congruence|auto].
      - intros y _. destruct (decA x y); [subst|]; ring. }
    assert (lsum L (fun s => 1 - K s s) = 0) as Z.
    { rewrite lsum_minus, lsum_const. unfold K. rewrite lsum_swap. rewrite (lsum_ext Bs _ (fun _ => 1)); [rewrite lsum_const, C; ring|].
      intros b Hb. unfold Rdiv. rewrite lsum_scal_r, O by auto. destruct (decB b b); [|contradiction]. field. auto. }
    assert (forall s, In s L -> 0 <= lsum L (fun t => e s t * e s t)) as P. { intros x _. apply lsum_nonneg. intros y _. nra. }
    assert (lsum L (fun t => e s t * e s t) = 0) as E0.
    { rewrite E by auto. apply (lsum_nonneg_0 L (fun s => 1 - K s s)); auto. intros x Hx. rewrite <- E by auto. auto. }
    assert (e s t * e s t = 0) as Q by (apply (lsum_nonneg_0 L (fun t => e s t * e s t)); auto; intros y _; nra).
    assert (e s t = 0) as Q' by nra. unfold e in Q'. lra.
  Qed.
End Complete.

Lemma dimR_pos n l : is_part n l -> (1 <= n)%Z -> 0 < dimR n l.
Proof.
  intros P Hn. unfold dimR. apply (IZR_lt 0). destruct (standard_exists (Z.to_nat n) l) as (t & St); [replace (Z.of_nat (Z.to_nat n)) with n by lia; auto|].
  pose proof (pos_standard n l _ t (proj2 (mkirr_ok n l P Hn)) St). lia.
Qed.

(* all (shape, row, column) triples *)
Definition triples (k : nat) : list (list Z * (Z * Z)) :=
  let n := (Z.of_nat k + 1)%Z in
  flat_map (fun l => map (pair l) (flat_map (fun i => map (pair i) (zrange 0 (io_d (mkirr n l)))) (zrange 0 (io_d (mkirr n l))))) (plist k).

Lemma in_triples k l i j : In (l, (i, j)) (triples k) <->
  is_part (Z.of_nat k + 1) l /\ (0 <= i < io_d (mkirr (Z.of_nat k + 1) l))%Z /\ (0 <= j < io_d (mkirr (Z.of_nat k + 1) l))%Z.
Proof.
  unfold triples. cbv zeta. rewrite in_flat_map. split.
  - intros (l' & A & B). apply in_map_iff in B as (x & E & B). injection E as <- ->. apply in_flat_map in B as (i' & Bi & Bj). apply in_map_iff in Bj as (j' & E & Bj).
    injection E as <- <-. apply in_zrange in Bi, Bj. apply plist_spec in A. auto.
  - intros (A & Bi & Bj). exists l. split; [apply plist_spec; auto|]. apply in_map. apply in_flat_map. exists i. split; [apply in_zrange; auto|]. apply in_map. apply in_zrange. auto.
Qed.

Lemma NoDup_triples k : NoDup (triples k).
Proof. apply NoDup_flat_pairs; [apply NoDup_plist|]. intros l _. apply NoDup_flat_pairs; [apply NoDup_zrange|]. intros; apply NoDup_zrange. Qed.

Lemma lsum_triples k f : lsum (triples k) f =
  lsum (plist k) (fun l => rsum (io_d (mkirr (Z.of_nat k + 1) l)) (fun i => rsum (io_d (mkirr (Z.of_nat k + 1) l)) (fun j => f (l, (i, j))))).
Proof.
  unfold triples. cbv zeta. rewrite lsum_flat_map. apply lsum_ext. intros l _. rewrite lsum_map, lsum_flat_map, rsum_lsum. apply lsum_ext. intros i _.
  rewrite lsum_map, rsum_lsum. reflexivity.
Qed.

Lemma zlen_triples k : zlen (triples k) = zfact (Z.of_nat k + 1).
Proof.
  apply eq_IZR. rewrite <- sum_squares. rewrite <- (Rmult_1_r (IZR (zlen (triples k)))), <- (lsum_const (triples k) 1), lsum_triples. apply lsum_ext. intros l _.
  rewrite rsum_lsum. rewrite (lsum_ext _ _ (fun _ => dimR (Z.of_nat k + 1) l)).
  - rewrite lsum_const, zlen_zrange. unfold dimR at 2. pose proof (io_d_nonneg (mkirr (Z.of_nat k + 1) l)). rewrite Z.max_r by lia. rewrite Z.sub_0_r. reflexivity.
  - intros i _. rewrite rsum_lsum, lsum_const, zlen_zrange. pose proof (io_d_nonneg (mkirr (Z.of_nat k + 1) l)). rewrite Z.max_r by lia. rewrite Z.sub_0_r. unfold dimR. ring.
Qed.

Definition rr (n : Z) (l : list Z) (p : list Z) (i j : Z) : R := rho n (mkirr n l) p i j.

Lemma triple_dec : forall x y : list Z * (Z * Z), {x = y} + {x <> y}.
Proof. repeat decide equality. Qed.

(* the matrix elements are orthogonal and complete *)
Theorem inversion_kernel n s t : (1 <= n)%Z -> is_perm n s -> is_perm n t ->
  lsum (plist (Z.to_nat (n - 1))) (fun l => dimR n l / IZR (zfact n) * rsum (io_d (mkirr n l)) (fun i => rsum (io_d (mkirr n l)) (fun j => rr n l s i j * rr n l t i j)))
  = if list_eq_dec Z.eq_dec s t then 1 else 0.
Proof.
  intros Hn Hs Ht. set (k := Z.to_nat (n - 1)). assert (Z.of_nat k + 1 = n)%Z as En by lia. pose proof (all_perms_lists n ltac:(lia)) as HL.
  pose proof (zfact_pos n) as Fp. assert (IZR (zfact n) <> 0) as Fz by (apply not_0_IZR; lia).
  rewrite <- (complete (list_eq_dec Z.eq_dec) triple_dec (all_perms n) (triples k) (fun b p => rr n (fst b) p (fst (snd b)) (snd (snd b))) (fun b => IZR (zfact n) / dimR n (fst b))).
  - rewrite lsum_triples, En. apply lsum_ext. intros l Hl. apply plist_spec in Hl. rewrite En in Hl. pose proof (dimR_pos n l Hl Hn).
    rewrite rsum_lsum, <- lsum_scal, rsum_lsum. apply lsum_ext. intros i _. rewrite rsum_lsum, <- lsum_scal, rsum_lsum. apply lsum_ext. intros j _. cbn [fst snd]. field. lra.
  - apply HL.
  - apply NoDup_triples.
  - intros (l, (i, j)) Hb. apply in_triples in Hb as (P & _). rewrite En in P. cbn [fst]. pose proof (dimR_pos n l P Hn). unfold Rdiv. apply Rmult_integral_contrapositive_currified; auto.
    apply Rinv_neq_0_compat. lra.
  - intros (l, (i, j)) (l', (i', j')) Hb Hc. apply in_triples in Hb as (P & Hi & Hj), Hc as (P' & Hi' & Hj'). rewrite En in *. cbn [fst snd]. unfold rr.
    destruct (mkirr_ok n l P Hn) as (_ & G). destruct (mkirr_ok n l' P' Hn) as (_ & G').
    change (mm n (mkirr n l) (mkirr n l') (all_perms n) i j i' j' = if triple_dec (l, (i, j)) (l', (i', j')) then IZR (zfact n) / dimR n l else 0).
    destruct (list_eq_dec Z.eq_dec l l') as [<-|Ne].
    + rewrite (mm_same n l) by auto. destruct (triple_dec (l, (i, j)) (l, (i', j'))) as [E|E].
      * injection E as <- <-. destruct (Z.eq_dec i i), (Z.eq_dec j j); try contradiction. reflexivity.
      * destruct (Z.eq_dec i i'), (Z.eq_dec j j'); auto. exfalso. apply E. congruence.
    + destruct (triple_dec (l, (i, j)) (l', (i', j'))) as [E|_]; [congruence|]. apply (mm_zero n l _ l'); auto. intros (K & _). contradiction.
  - rewrite zlen_triples, En. apply lists_Sn_len; auto. lia.
  - apply HL; auto.
  - apply HL; auto.
Qed.

(* blocks named by their row *)
Definition boff (n : Z) (l : list Z) (r : Z) : Z := offset (ds n l) (Z.to_nat (idx r (corners l))).

Lemma cix (n : Z) l r : In r (corners l) -> (Z.to_nat (idx r (corners l)) < length (corners l))%nat /\ nth (Z.to_nat (idx r (corners l))) (corners l) 0%Z = r.
Proof. intros H. destruct (idx_In r (corners l) H) as (A & B). unfold zlen in A. split; [lia|exact B]. Qed.

Lemma sub_row n l r : In r (corners l) -> subirr n l (Z.to_nat (idx r (corners l))) = mkirr (n - 1) (prem l r).
Proof. intros H. unfold subirr. rewrite (proj2 (cix n l r H)). reflexivity. Qed.

Lemma boff_bound n l r a : is_part n l -> (2 <= n)%Z -> In r (corners l) -> (0 <= a < io_d (mkirr (n - 1) (prem l r)))%Z -> (0 <= boff n l r + a < io_d (mkirr n l))%Z.
Proof.
  intros P Hn Hr Ha. destruct (mkirr_ok n l P ltac:(lia)) as (_ & G). destruct (cix n l r Hr) as (A & B). apply (offset_ds_bound n l _ Hn G); auto. rewrite sub_row; auto.
Qed.

Lemma rr_boff n l p r r' a b : is_part n l -> (2 <= n)%Z -> is_perm (n - 1) p -> In r (corners l) -> In r' (corners l) ->
  (0 <= a < io_d (mkirr (n - 1) (prem l r)))%Z -> (0 <= b < io_d (mkirr (n - 1) (prem l r')))%Z ->
  rr n l (p ++ [n]) (boff n l r + a) (boff n l r' + b) = if Z.eq_dec r r' then rr (n - 1) (prem l r) p a b else 0.
Proof.
  intros P Hn Pp Hr Hr' Ha Hb. destruct (mkirr_ok n l P ltac:(lia)) as (_ & G). destruct (cix n l r Hr) as (A & B). destruct (cix n l r' Hr') as (A' & B').
  unfold rr at 1, boff. rewrite (rho_block n l _ Hn G) by (rewrite ?sub_row; auto). rewrite sub_row by auto. fold (rr (n - 1) (prem l r) p a b).
  destruct (Nat.eq_dec _ _) as [E|E], (Z.eq_dec r r') as [Q|Q]; auto.
  - exfalso. apply Q. rewrite <- B, <- B', E. reflexivity.
  - exfalso. apply E. rewrite Q. reflexivity.
Qed.

Lemma rsum_split d e f : (0 <= d)%Z -> (0 <= e)%Z -> rsum (d + e) f = rsum d f + rsum e (fun a => f (d + a)%Z).
Proof.
  intros Hd He. rewrite !rsum_lsum. rewrite (zrange_app 0 d (d + e)) by lia. rewrite lsum_app. f_equal.
  replace (zrange d (d + e)) with (map (fun a => (d + a)%Z) (zrange 0 e)); [apply lsum_map|].
  unfold zrange. rewrite map_map. replace (Z.to_nat (d + e - d)) with (Z.to_nat (e - 0)) by lia. apply map_ext. intros; lia.
Qed.

Lemma rsum_0 f : rsum 0 f = 0.
Proof. rewrite rsum_lsum, zrange_nil by lia. reflexivity. Qed.

Lemma rsum_offset ds f : (forall x, In x ds -> (0 <= x)%Z) -> rsum (zsum ds) f = lsum (seq 0 (length ds)) (fun c => rsum (nth c ds 0%Z) (fun a => f (offset ds c + a)%Z)).
Proof.
  revert f; induction ds as [|x ds IH]; intros f H; [cbn [length seq]; rewrite lsum_nil; apply rsum_0|].
  assert (forall y, In y ds -> (0 <= y)%Z) as H' by (intros; apply H; right; auto). pose proof (H x (or_introl eq_refl)).
  rewrite zsum_cons, rsum_split; [|auto|]. 2:{ clear - H'. induction ds as [|y ds IH]; [cbn; lia|]. rewrite zsum_cons. pose proof (H' y (or_introl eq_refl)). specialize (IH ltac:(intros; apply H'; right; auto)). lia. }
  cbn [length seq]. rewrite lsum_cons, IH by auto. f_equal.
  rewrite <- seq_shift, lsum_map. apply lsum_ext. intros c _. cbn [nth]. rewrite offset_S. apply rsum_ext. intros a _. f_equal. lia.
Qed.

Lemma lsum_nth {A} (l : list A) d (f : A -> R) : lsum (seq 0 (length l)) (fun c => f (nth c l d)) = lsum l f.
Proof.
  rewrite <- (lsum_map (fun c => nth c l d)). f_equal. induction l as [|x l IH]; [reflexivity|]. cbn [length seq map nth]. f_equal. rewrite <- seq_shift, map_map. exact IH.
Qed.

Lemma rsum_boff n l f : is_part n l -> (2 <= n)%Z -> rsum (io_d (mkirr n l)) f = lsum (corners l) (fun r => rsum (io_d (mkirr (n - 1) (prem l r))) (fun a => f (boff n l r + a)%Z)).
Proof.
  intros P Hn. destruct (mkirr_ok n l P ltac:(lia)) as (_ & G). rewrite (d_blocks n l _ Hn G), rsum_offset by apply ds_nonneg. rewrite len_ds.
  rewrite <- (lsum_nth (corners l) 0%Z). apply lsum_ext. intros c Hc. apply in_seq in Hc. rewrite nth_ds by lia. unfold boff, subirr.
  replace (Z.to_nat (idx (nth c (corners l) 0%Z) (corners l))) with c; [reflexivity|].
  pose proof (idx_znth (corners l) (Z.of_nat c) (NoDup_corners l) ltac:(unfold zlen; lia)) as E. unfold znth in E. rewrite Nat2Z.id in E. rewrite E. lia.
Qed.

(* Fourier inversion for functions on Sn *)
Theorem inversion n L (phi : list Z -> R) g : (1 <= n)%Z -> lists_Sn n L -> is_perm n g ->
  phi g = lsum (plist (Z.to_nat (n - 1))) (fun l => dimR n l / IZR (zfact n) *
     rsum (io_d (mkirr n l)) (fun i => rsum (io_d (mkirr n l)) (fun j => rr n l g i j * lsum L (fun h => phi h * rr n l h i j)))).
Proof.
  intros Hn HL Hg. transitivity (lsum L (fun h => phi h * (if list_eq_dec Z.eq_dec g h then 1 else 0))).
  - rewrite (lsum_single L g); [destruct (list_eq_dec Z.eq_dec g g); [ring|contradiction]|apply HL|apply HL; auto|].
    intros h _ Ne. destruct (list_eq_dec Z.eq_dec g h); [congruence|ring].
  - rewrite (lsum_ext L _ (fun h => lsum (plist (Z.to_nat (n - 1))) (fun l => lsum (zrange 0 (io_d (mkirr n l))) (fun i => lsum (zrange 0 (io_d (mkirr n l))) (fun j => dimR n l / IZR (zfact n) * rr n l g i j * (phi h * rr n l h i j)))))).
    + rewrite lsum_swap. apply lsum_ext. intros l _. rewrite rsum_lsum, lsum_swap, <- lsum_scal. apply lsum_ext. intros i _. rewrite rsum_lsum, lsum_swap, <- lsum_scal.
      apply lsum_ext. intros j _. rewrite lsum_scal. ring.
    + intros h Hh. apply HL in Hh. rewrite <- (inversion_kernel n g h Hn Hg Hh). rewrite <- lsum_scal. apply lsum_ext. intros l _. rewrite rsum_lsum, <- !lsum_scal.
      apply lsum_ext. intros i _. rewrite rsum_lsum, <- !lsum_scal. apply lsum_ext. intros j _. ring.
Qed.

(* sums over the subgroup fixing the last point *)
Lemma lsum_subgroup n L L' (f : list Z -> R) : (1 <= n)%Z -> lists_Sn (n + 1) L -> lists_Sn n L' ->
  lsum L (fun h => if Z.eq_dec (img h (n + 1)) (n + 1) then f h else 0) = lsum L' (fun p => f (p ++ [n + 1]%Z)).
Proof.
  intros Hn HL HL'. rewrite (lsum_ext L _ (fun h => if (if Z.eq_dec (img h (n + 1)) (n + 1) then true else false) then f h else 0)).
  2:{ intros h _. destruct (Z.eq_dec (img h (n + 1)) (n + 1)); auto. }
  rewrite <- lsum_filter. symmetry. apply (lsum_bij L' _ (fun p => p ++ [(n + 1)%Z])).
  - apply HL'.
  - apply NoDup_filter. apply HL.
  - intros p Hp. apply HL' in Hp. apply filter_In. split; [apply HL; apply is_perm_snoc; auto|]. 
    assert (img (p ++ [(n + 1)%Z]) (n + 1) = n + 1)%Z as ->. 
    { unfold img. rewrite app_nth2; pose proof (is_perm_len _ _ Hp) as Ln; unfold zlen in Ln; [|lia]. replace (Z.to_nat (n + 1 - 1) - length p)%nat with O by lia. reflexivity. }
    destruct (Z.eq_dec _ _); auto.
  - intros x y _ _ E. apply app_inj_tail in E. tauto.
  - intros h Hh. apply filter_In in Hh as (A & B). apply HL in A. destruct (Z.eq_dec (img h (n + 1)) (n + 1)) as [E|]; [|discriminate B].
    destruct (fixes_last (n + 1) h ltac:(lia) A E) as (Q & Pp). exists (removelast h). split; auto. apply HL'. replace n with (n + 1 - 1)%Z by lia. auto.
Qed.

Lemma branching_coef n l lam a b i j L' : is_part n l -> is_part (n + 1) lam -> (1 <= n)%Z -> lists_Sn n L' ->
  (0 <= a < io_d (mkirr n l))%Z -> (0 <= b < io_d (mkirr n l))%Z ->
  forall r r', In r (corners lam) -> In r' (corners lam) -> (0 <= i < io_d (mkirr n (prem lam r)))%Z -> (0 <= j < io_d (mkirr n (prem lam r')))%Z ->
  lsum L' (fun p => rr n l p a b * rr (n + 1) lam (p ++ [n + 1]%Z) (boff (n + 1) lam r + i) (boff (n + 1) lam r' + j)) =
  if Z.eq_dec r r' then if list_eq_dec Z.eq_dec (prem lam r) l then if Z.eq_dec a i then if Z.eq_dec b j then IZR (zfact n) / dimR n l else 0 else 0 else 0 else 0.
Proof.
  intros P Pl Hn HL' Ha Hb r r' Hr Hr' Hi Hj. pose proof (corner_part _ _ _ Pl Hr) as Pr. replace (n + 1 - 1)%Z with n in Pr by lia.
  rewrite (lsum_ext _ _ (fun p => if Z.eq_dec r r' then rr n l p a b * rr n (prem lam r) p i j else 0)).
  2:{ intros p Hp. apply HL' in Hp. rewrite rr_boff by (first [lia | assumption | replace (n + 1 - 1)%Z with n by lia; assumption]). replace (n + 1 - 1)%Z with n by lia. destruct (Z.eq_dec r r'); ring. }
  destruct (Z.eq_dec r r') as [<-|Ne]; [|apply lsum_0; auto].
  destruct (mkirr_ok n l P Hn) as (_ & G). destruct (mkirr_ok n _ Pr Hn) as (_ & G').
  change (mm n (mkirr n l) (mkirr n (prem lam r)) L' a b i j = if list_eq_dec Z.eq_dec (prem lam r) l then if Z.eq_dec a i then if Z.eq_dec b j then IZR (zfact n) / dimR n l else 0 else 0 else 0).
  destruct (list_eq_dec Z.eq_dec (prem lam r) l) as [E|Ne].
  - rewrite E in *. apply (mm_same n l); auto.
  - apply (mm_zero n l _ (prem lam r)); auto. intros (K & _). congruence.
Qed.

Theorem branching n l g a b : is_part n l -> (1 <= n)%Z -> is_perm (n + 1) g -> (0 <= a < io_d (mkirr n l))%Z -> (0 <= b < io_d (mkirr n l))%Z ->
  lsum (adds l) (fun r => dimR (n + 1) (padd l r) / (dimR n l * IZR (n + 1)) * rr (n + 1) (padd l r) g (boff (n + 1) (padd l r) r + a) (boff (n + 1) (padd l r) r + b)) =
  if Z.eq_dec (img g (n + 1)) (n + 1) then rr n l (removelast g) a b else 0.
Proof.
  intros P Hn Hg Ha Hb. pose proof (all_perms_lists n ltac:(lia)) as HL'. pose proof (all_perms_lists (n + 1) ltac:(lia)) as HL.
  set (phi := fun h => if Z.eq_dec (img h (n + 1)) (n + 1) then rr n l (removelast h) a b else 0). change (if Z.eq_dec (img g (n + 1)) (n + 1) then rr n l (removelast g) a b else 0) with (phi g).
  rewrite (inversion (n + 1) _ phi g ltac:(lia) HL Hg). replace (Z.to_nat (n + 1 - 1)) with (S (Z.to_nat (n - 1))) by lia.
  pose proof (zfact_pos n) as Fp. assert (IZR (zfact n) <> 0) as Fz by (apply not_0_IZR; lia). pose proof (dimR_pos n l P Hn) as Dp.
  assert (IZR (n + 1) <> 0) as Nz by (apply not_0_IZR; lia).
  assert (zfact (n + 1) = (n + 1) * zfact n)%Z as Fs.
  { unfold zfact. replace (Z.to_nat (n + 1)) with (S (Z.to_nat n)) by lia. cbn [zfactn]. replace (Z.of_nat (S (Z.to_nat n))) with (n + 1)%Z by lia. ring. }
  rewrite (lsum_ext (plist (S (Z.to_nat (n - 1)))) _ (fun lam => lsum (corners lam) (fun r => if list_eq_dec Z.eq_dec (prem lam r) l then
     dimR (n + 1) lam / (dimR n l * IZR (n + 1)) * rr (n + 1) lam g (boff (n + 1) lam r + a) (boff (n + 1) lam r + b) else 0))).
  - rewrite (updown_swap (Z.to_nat (n - 1)) (fun lam r m => if list_eq_dec Z.eq_dec m l then dimR (n + 1) lam / (dimR n l * IZR (n + 1)) * rr (n + 1) lam g (boff (n + 1) lam r + a) (boff (n + 1) lam r + b) else 0)).
    rewrite (lsum_single _ l).
    + apply lsum_ext. intros r _. destruct (list_eq_dec Z.eq_dec l l); [auto|contradiction].
    + apply NoDup_plist.
    + apply plist_spec. replace (Z.of_nat (Z.to_nat (n - 1)) + 1)%Z with n by lia. auto.
    + intros m _ Nm. apply lsum_0. intros r _. destruct (list_eq_dec Z.eq_dec m l); [contradiction|auto].
  - intros lam Hl. apply plist_spec in Hl. replace (Z.of_nat (S (Z.to_nat (n - 1))) + 1)%Z with (n + 1)%Z in Hl by lia.
    rewrite (rsum_boff (n + 1) lam) by (auto; lia). replace (n + 1 - 1)%Z with n by lia. rewrite <- lsum_scal. apply lsum_ext. intros r Hr.
    assert (forall i, (0 <= i < io_d (mkirr n (prem lam r)))%Z ->
      rsum (io_d (mkirr (n + 1) lam)) (fun j => rr (n + 1) lam g (boff (n + 1) lam r + i) j * lsum (all_perms (n + 1)) (fun h => phi h * rr (n + 1) lam h (boff (n + 1) lam r + i) j)) =
      if list_eq_dec Z.eq_dec (prem lam r) l then if Z.eq_dec a i then rr (n + 1) lam g (boff (n + 1) lam r + i) (boff (n + 1) lam r + b) * (IZR (zfact n) / dimR n l) else 0 else 0) as Row.
    { intros i Hi. rewrite (rsum_boff (n + 1) lam) by (auto; lia). replace (n + 1 - 1)%Z with n by lia.
      assert (forall r' j, In r' (corners lam) -> (0 <= j < io_d (mkirr n (prem lam r')))%Z -> lsum (all_perms (n + 1)) (fun h => phi h * rr (n + 1) lam h (boff (n + 1) lam r + i) (boff (n + 1) lam r' + j)) =
        if Z.eq_dec r r' then if list_eq_dec Z.eq_dec (prem lam r) l then if Z.eq_dec a i then if Z.eq_dec b j then IZR (zfact n) / dimR n l else 0 else 0 else 0 else 0) as Co.
      { intros r' j Hr' Hj. rewrite <- (branching_coef n l lam a b i j (all_perms n) P Hl Hn HL' Ha Hb r r' Hr Hr' Hi Hj).
        rewrite (lsum_ext (all_perms n) _ (fun p => rr n l (removelast (p ++ [(n + 1)%Z])) a b * rr (n + 1) lam (p ++ [(n + 1)%Z]) (boff (n + 1) lam r + i) (boff (n + 1) lam r' + j))).
        2:{ intros p _. rewrite removelast_last. reflexivity. }
        rewrite <- (lsum_subgroup n _ _ (fun h => rr n l (removelast h) a b * rr (n + 1) lam h (boff (n + 1) lam r + i) (boff (n + 1) lam r' + j)) Hn HL HL') by auto.
        apply lsum_ext. intros h _. unfold phi. destruct (Z.eq_dec (img h (n + 1)) (n + 1)); ring. }
      rewrite (lsum_single _ r); [|apply NoDup_corners|auto|].
      - rewrite (rsum_ext _ _ (fun j => (if list_eq_dec Z.eq_dec (prem lam r) l then if Z.eq_dec a i then rr (n + 1) lam g (boff (n + 1) lam r + i) (boff (n + 1) lam r + j) * (IZR (zfact n) / dimR n l) else 0 else 0) * delta j b)).
        2:{ intros j Hj. rewrite Co by auto. destruct (Z.eq_dec r r); [|contradiction]. unfold delta. 
            destruct (list_eq_dec Z.eq_dec (prem lam r) l), (Z.eq_dec a i), (Z.eq_dec b j), (Z.eq_dec j b); try congruence; ring. }
        destruct (list_eq_dec Z.eq_dec (prem lam r) l) as [E|Ne].
        + rewrite E. rewrite rsum_delta by auto. reflexivity.
        + rewrite rsum_lsum. apply lsum_0. intros; ring.
      - intros r' Hr' Ne. rewrite rsum_lsum. apply lsum_0. intros j Hj. apply in_zrange in Hj. rewrite Co by auto. destruct (Z.eq_dec r r'); [congruence|ring]. }
    rewrite (rsum_ext _ _ (fun i => (if list_eq_dec Z.eq_dec (prem lam r) l then rr (n + 1) lam g (boff (n + 1) lam r + i) (boff (n + 1) lam r + b) * (IZR (zfact n) / dimR n l) else 0) * delta i a)).
    2:{ intros i Hi. rewrite Row by auto. unfold delta. destruct (list_eq_dec Z.eq_dec (prem lam r) l), (Z.eq_dec a i), (Z.eq_dec i a); try congruence; ring. }
    destruct (list_eq_dec Z.eq_dec (prem lam r) l) as [E|Ne].
    + rewrite E. rewrite rsum_delta by auto. rewrite Fs, mult_IZR. field. repeat split; auto. lra.
    + rewrite rsum_lsum, lsum_0; [ring|]. intros; ring.
Qed.
