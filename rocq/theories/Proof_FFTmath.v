(* The sums computed by the levels of the transform: the step down undoes the step up, and the steps up
   add up to the Fourier transform. *)
From Coq Require Import ZArith List Bool Lia ZifyBool ZifyNat Reals Lra Sorted.
From Verif Require Import Model_Base Model_Perm Model_Sn Model_Part Model_Comb Model_Tab Model_Irrep Model_Fun Model_FFT.
From Verif Require Import Spec_Perm Spec_Part Spec_Tab Spec_Rep Spec_Four.
From Verif Require Import Proof_Base Proof_Perm Proof_Sn Proof_Part Proof_PartProps Proof_Tab Proof_TabProps Proof_Cycles Proof_Cox Proof_Yor Proof_Sum
  Proof_Irrep Proof_Rep Proof_Mat Proof_IrrepProps Proof_JM Proof_Conn Proof_Schur Proof_Restr Proof_UpDown Proof_Complete Proof_View Proof_ViewProps
  Proof_FFTlay Proof_FFTblk Proof_FFTact Proof_FFTstep.
Import ListNotations.
Open Scope Z_scope.

Local Notation pdec := (list_eq_dec Z.eq_dec).

(* ---- permutations ---- *)

Lemma img_snoc m p x : is_perm m p -> 1 <= x <= m + 1 -> img (p ++ [m + 1]) x = if x =? m + 1 then m + 1 else img p x.
Proof.
  intros P Hx. pose proof (is_perm_len _ _ P) as L. unfold zlen in L. unfold img. destruct (Z.eqb_spec x (m + 1)) as [->|N].
  - rewrite app_nth2 by lia. replace (Z.to_nat (m + 1 - 1) - length p)%nat with O by lia. reflexivity.
  - rewrite app_nth1 by lia. reflexivity.
Qed.

Lemma pinv_snoc m p : is_perm m p -> pinv (p ++ [m + 1]) = pinv p ++ [m + 1].
Proof.
  intros P. assert (is_perm m (pinv p)) as Pi by (apply is_perm_pinv; auto). pose proof (is_perm_snoc m p P) as P1. pose proof (is_perm_snoc m _ Pi) as P2.
  symmetry. apply (pinv_unique (m + 1)); auto. pose proof (is_perm_len _ _ P2) as L2. pose proof (is_perm_len _ _ P) as L. assert (0 <= m) by (rewrite <- L; apply zlen_nonneg).
  apply (perm_ext (m + 1)); [rewrite zlen_pmul; auto|apply zlen_pid; lia|]. intros x Hx. rewrite img_pmul by lia. rewrite img_pid by lia. rewrite (img_snoc m (pinv p)) by auto.
  destruct (Z.eqb_spec x (m + 1)) as [->|N]; [rewrite img_snoc by (auto; lia); rewrite Z.eqb_refl; reflexivity|].
  pose proof (img_pinv_range m p x P ltac:(lia)). rewrite img_snoc by (auto; lia). destruct (Z.eqb_spec (img (pinv p) x) (m + 1)); [lia|]. apply (img_pinv_r m); auto; lia.
Qed.

Lemma elt_split n j e : 0 <= n -> 0 <= j < n + 1 -> 0 <= e < zfact n ->
  elt (Z.to_nat (n + 1)) (j * zfact n + e) = pmul (elt (Z.to_nat n) e ++ [n + 1]) (pcyc (n + 1) (n + 1) (n + 1 - j)).
Proof.
  intros Hn Hj He. replace (Z.to_nat (n + 1)) with (S (Z.to_nat n)) by lia. cbn [elt]. fold (zfact n).
  assert ((j * zfact n + e) / zfact n = j) as -> by (symmetry; apply (Z.div_unique _ _ _ e); [lia|ring]).
  assert ((j * zfact n + e) mod zfact n = e) as -> by (symmetry; apply (Z.mod_unique _ _ j); [lia|ring]).
  set (p := elt (Z.to_nat n) e). assert (is_perm n p) as P by (unfold p; replace n with (Z.of_nat (Z.to_nat n)) at 1 by lia; apply is_perm_elt). pose proof (is_perm_len _ _ P) as L.
  replace (Z.of_nat (Z.to_nat n)) with n by lia. replace (Z.of_nat (S (Z.to_nat n))) with (n + 1) by lia.
  assert (is_perm (n + 1) (pcyc (n + 1) (n + 1) (n + 1 - j))) as Pc by (apply is_perm_pcyc; lia).
  apply (perm_ext (n + 1)); [rewrite zlen_zins; lia|rewrite zlen_pmul; apply (is_perm_len _ _ Pc)|].
  intros x Hx. rewrite img_pmul by (rewrite (is_perm_len _ _ Pc); lia). rewrite img_pcyc by lia.
  rewrite (img_snoc n p); [|auto|unf]. change (img (zins (n - j) (n + 1) p) x) with (znth (zins (n - j) (n + 1) p) (x - 1) 0).
  rewrite znth_zins by lia. unfold cfun, img. change (@nth Z) with (@nth Z). fold (znth p (x - 1) 0).
  destruct (Z.ltb_spec (n + 1) (n + 1 - j)); [lia|]. destruct (Z.ltb_spec (x - 1) (n - j)).
  - destruct (Z.ltb_spec (n + 1 - j) x); [lia|]. cbn [andb]. destruct (Z.eqb_spec x (n + 1 - j)); [lia|]. destruct (Z.eqb_spec x (n + 1)); [lia|]. reflexivity.
  - destruct (Z.eqb_spec (x - 1) (n - j)).
    + destruct (Z.ltb_spec (n + 1 - j) x); [lia|]. cbn [andb]. destruct (Z.eqb_spec x (n + 1 - j)); [|lia]. rewrite Z.eqb_refl. reflexivity.
    + destruct (Z.ltb_spec (n + 1 - j) x); [|lia]. destruct (Z.leb_spec x (n + 1)); [|lia]. cbn [andb]. destruct (Z.eqb_spec (x - 1) (n + 1)); [lia|]. reflexivity.
Qed.

Lemma pinv_pcyc n a b : 1 <= a <= n -> 1 <= b <= n -> pinv (pcyc n a b) = pcyc n b a.
Proof. intros Ha Hb. symmetry. apply (pinv_unique n); [apply is_perm_pcyc; auto|apply is_perm_pcyc; auto|]. apply pcyc_inverse; auto. Qed.

Lemma pinv_elt_split n j e : 0 <= n -> 0 <= j < n + 1 -> 0 <= e < zfact n ->
  pinv (elt (Z.to_nat (n + 1)) (j * zfact n + e)) = pmul (pcyc (n + 1) (n + 1 - j) (n + 1)) (pinv (elt (Z.to_nat n) e) ++ [n + 1]).
Proof.
  intros Hn Hj He. rewrite elt_split by auto. assert (is_perm n (elt (Z.to_nat n) e)) as P by (replace n with (Z.of_nat (Z.to_nat n)) at 1 by lia; apply is_perm_elt).
  rewrite (pinv_pmul (n + 1)) by (first [apply is_perm_snoc; auto|apply is_perm_pcyc; lia]). rewrite pinv_pcyc, pinv_snoc by (auto; lia). reflexivity.
Qed.

(* ---- a window of a sum ---- *)

Lemma rsum_window d o e (f g : Z -> R) : 0 <= o -> 0 <= e -> o + e <= d ->
  rsum d (fun q => (f q * (if inrange (q - o) e then g (q - o)%Z else 0))%R) = rsum e (fun a => (f (o + a)%Z * g a)%R).
Proof.
  intros Ho He Hd. replace d with (o + (e + (d - o - e))) by lia. rewrite rsum_split by lia. rewrite (rsum_split e) by lia.
  rewrite (rsum_ext o _ (fun _ => 0%R)). 2:{ intros i Hi. unfold inrange. replace (0 <=? i - o) with false by lia. cbn [andb]. ring. }
  rewrite (rsum_ext (d - o - e) _ (fun _ => 0%R)). 2:{ intros i Hi. unfold inrange. replace (o + (e + i) - o <? e) with false by lia. rewrite andb_false_r. ring. }
  rewrite !rsum_lsum. rewrite (lsum_0 (zrange 0 o)) by auto. rewrite (lsum_0 (zrange 0 (d - o - e))) by auto. rewrite Rplus_0_l, Rplus_0_r. apply lsum_ext.
  intros a Ha. apply in_zrange in Ha. replace (o + a - o) with a by lia. rewrite inrange_true by lia. reflexivity.
Qed.

Lemma rsum_scal d c (f : Z -> R) : rsum d (fun i => (c * f i)%R) = (c * rsum d f)%R.
Proof. rewrite !rsum_lsum. apply lsum_scal. Qed.
Lemma rsum_scal_r d c (f : Z -> R) : rsum d (fun i => (f i * c)%R) = (rsum d f * c)%R.
Proof. rewrite !rsum_lsum. apply lsum_scal_r. Qed.
Lemma rsum_swap d e (f : Z -> Z -> R) : rsum d (fun i => rsum e (fun j => f i j)) = rsum e (fun j => rsum d (fun i => f i j)).
Proof.
  rewrite !rsum_lsum. rewrite (lsum_ext _ _ (fun i => lsum (zrange 0 e) (fun j => f i j))) by (intros; apply rsum_lsum). rewrite lsum_swap. apply lsum_ext. intros. rewrite rsum_lsum. reflexivity.
Qed.
Lemma rsum_single d i (f : Z -> R) : 0 <= i < d -> (forall j, 0 <= j < d -> j <> i -> f j = 0%R) -> rsum d f = f i.
Proof.
  intros Hi H. rewrite rsum_lsum. apply lsum_single; [apply NoDup_zrange|apply in_zrange; auto|]. intros j Hj Nj. apply in_zrange in Hj. auto.
Qed.
Lemma rsum_prod a b (f : Z -> R) : 0 <= a -> 0 <= b -> rsum (a * b) f = rsum a (fun i => rsum b (fun j => f (i * b + j)%Z)).
Proof.
  intros Ha Hb. replace a with (Z.of_nat (Z.to_nat a)) by lia. generalize (Z.to_nat a) as k. clear Ha. induction k as [|k IH].
  - change (Z.of_nat 0) with 0. rewrite Z.mul_0_l, !rsum_0. reflexivity.
  - replace (Z.of_nat (S k) * b) with (Z.of_nat k * b + b) by nia. rewrite rsum_split by nia. rewrite IH. replace (Z.of_nat (S k)) with (Z.of_nat k + 1) by lia. rewrite (rsum_split (Z.of_nat k) 1) by lia.
    f_equal. rewrite (rsum_single 1 0) by lia. rewrite Z.add_0_r. reflexivity.
Qed.

Section Math.
  Variable m : Z.
  Hypothesis Hm : 1 <= m.
  Local Notation lv k := (m + Z.of_nat k).
  Local Notation dd k l := (io_d (mkirr (lv k) l)).

  (* the block of one parent *)
  Lemma blockV_at k V l r q s c : In r (subs m l) -> 0 <= c < mlt m k (prem l r) ->
    blockV m k V l (subs m l) q s (jof m k l r + c) = if inrange (q - boff (lv (S k)) l r) (dd k (prem l r)) then V (prem l r) (q - boff (lv (S k)) l r) s c else 0%R.
  Proof.
    intros Hr Hc. unfold blockV. rewrite (lsum_single _ r).
    - replace (jof m k l r + c - jof m k l r) with c by lia. rewrite (inrange_true c) by auto. rewrite andb_true_r. reflexivity.
    - apply NoDup_subs.
    - auto.
    - intros r' Hr' Nr. destruct (inrange (q - _) _); auto. cbn [andb]. destruct (inrange (jof m k l r + c - jof m k l r') (mlt m k (prem l r'))) eqn:Q; auto.
      exfalso. apply Nr. unfold inrange in Q. destruct (jof_inj m k l r' r (jof m k l r + c - jof m k l r') c) as (E & _); auto; lia.
  Qed.

  Lemma upV_block k V l r i s c : In l (qlist m (lv (S k))) -> In r (subs m l) -> 0 <= c < mlt m k (prem l r) ->
    upV m k V l i s (jof m k l r + c) =
    rsum (lv (S k)) (fun j => rsum (dd k (prem l r)) (fun a =>
      (rr (lv (S k)) l (pcyc (lv (S k)) (lv (S k) - j) (lv (S k))) i (boff (lv (S k)) l r + a) * V (prem l r) a (s * lv (S k) + j)%Z c)%R)).
  Proof.
    intros Hl Hr Hc. unfold upV. apply rsum_ext. intros j Hj. assert (is_part (lv (S k)) l) as P by (apply in_qlist in Hl as (Q & _); [exact Q|lia]).
    destruct (subs_qlist m Hm k l r Hl Hr) as (Hq & Hc'). destruct (boff_fit (lv (S k)) l r P ltac:(lia) Hc') as (B1 & B2). replace (lv (S k) - 1) with (lv k) in B2 by lia.
    rewrite <- (rsum_window (dd (S k) l) (boff (lv (S k)) l r) (dd k (prem l r)) (fun q => rr (lv (S k)) l (pcyc (lv (S k)) (lv (S k) - j) (lv (S k))) i q) (fun a => V (prem l r) a (s * lv (S k) + j)%Z c)) by (auto; apply io_d_nonneg).
    apply rsum_ext. intros q Hq'. rewrite blockV_at by auto. reflexivity.
  Qed.

  (* summing over the parts below which mu occurs *)
  Lemma parents_sum k mu (F : list Z -> Z -> R) : In mu (qlist m (lv k)) ->
    lsum (qlist m (lv (S k))) (fun lam => lsum (subs m lam) (fun r => if pdec (prem lam r) mu then F lam r else 0%R)) = lsum (adds mu) (fun r => F (padd mu r) r).
  Proof.
    intros Hmu. apply in_qlist in Hmu as (P & R0); [|lia]. unfold qlist. rewrite lsum_filter. replace (Z.to_nat (lv (S k) - 1)) with (S (Z.to_nat (lv k - 1))) by lia.
    rewrite (lsum_ext _ _ (fun lam => lsum (corners lam) (fun r => if pdec (prem lam r) mu then F lam r else 0%R))).
    - rewrite (updown_swap (Z.to_nat (lv k - 1)) (fun lam r mu' => if pdec mu' mu then F lam r else 0%R)). rewrite (lsum_single _ mu).
      + apply lsum_ext. intros r _. destruct (pdec mu mu); [reflexivity|contradiction].
      + apply NoDup_plist.
      + apply plist_spec. replace (Z.of_nat (Z.to_nat (lv k - 1)) + 1) with (lv k) by lia. auto.
      + intros mu' _ N. apply lsum_0. intros r _. destruct (pdec mu' mu); [contradiction|reflexivity].
    - intros lam Hlam. apply plist_spec in Hlam. replace (Z.of_nat (S (Z.to_nat (lv k - 1))) + 1) with (lv (S k)) in Hlam by lia.
      unfold subs. rewrite lsum_filter. destruct (m <=? row lam 0) eqn:E.
      + apply lsum_ext. intros r Hr. destruct (pdec (prem lam r) mu) as [->|]; [|destruct (m <=? row (prem lam r) 0); reflexivity]. destruct (Z.leb_spec m (row mu 0)); [reflexivity|lia].
      + symmetry. apply lsum_0. intros r Hr. destruct (pdec (prem lam r) mu) as [Em|]; [|reflexivity]. exfalso.
        pose proof (corner_row _ lam r 0 Hlam Hr ltac:(lia)) as Q. rewrite Em in Q. destruct (0 =? r); lia.
  Qed.

  Lemma cyc_moves n j j' : 1 <= n -> 0 <= j < n -> 0 <= j' < n -> (img (pmul (pcyc n n (n - j)) (pcyc n (n - j') n)) n = n <-> j = j').
  Proof.
    intros Hn Hj Hj'. pose proof (is_perm_len _ _ (is_perm_pcyc n (n - j') n ltac:(lia) ltac:(lia))) as L. rewrite img_pmul by lia. rewrite (img_pcyc n (n - j') n n) by lia.
    replace (cfun (n - j') n n) with (n - j') by unf. rewrite img_pcyc by lia. split; intros; unf.
  Qed.

  (* down undoes up *)
  Theorem down_up k V mu a y c : In mu (qlist m (lv k)) -> 0 <= a < dd k mu -> 0 <= y -> 0 <= c < mlt m k mu -> downV m k (upV m k V) mu a y c = V mu a y c.
  Proof.
    intros Hmu Ha Hy Hc. unfold downV. set (n := lv (S k)). set (s := y / n). set (j := y mod n).
    assert (0 <= j < n) as Hj by (apply Z.mod_pos_bound; lia). assert (y = s * n + j) as Ey by (pose proof (Z.div_mod y n ltac:(lia)); unfold s, j; lia).
    pose proof (proj1 (in_qlist m (lv k) mu ltac:(lia)) Hmu) as (P & R0).
    set (F := fun lam r => rsum n (fun j' => rsum (dd k mu) (fun a' =>
        (dimR n lam / (dimR (lv k) mu * IZR n) * rr n lam (pmul (pcyc n n (n - j)) (pcyc n (n - j') n)) (boff n lam r + a) (boff n lam r + a') * V mu a' (s * n + j')%Z c)%R))).
    rewrite (lsum_ext _ _ (fun lam => lsum (subs m lam) (fun r => if pdec (prem lam r) mu then F lam r else 0%R))).
    2:{ intros lam Hl. apply lsum_ext. intros r Hr. unfold downT. destruct (pdec (prem lam r) mu) as [Em|]; [|reflexivity]. fold n. fold j. fold s.
        pose proof (proj1 (in_qlist m n lam ltac:(lia)) Hl) as (Pl & _). destruct (subs_qlist m Hm k lam r Hl Hr) as (_ & Hc').
        destruct (mkirr_ok n lam Pl ltac:(lia)) as (_ & G).
        pose proof (boff_bound n lam r a Pl ltac:(lia) Hc') as Bb. replace (n - 1) with (lv k) in Bb by lia. rewrite Em in Bb. specialize (Bb Ha).
        rewrite (rsum_ext _ _ (fun q => rsum n (fun j' => rsum (dd k mu) (fun a' =>
           (V mu a' (s * n + j')%Z c * (rr n lam (pcyc n n (n - j)) (boff n lam r + a) q * rr n lam (pcyc n (n - j') n) q (boff n lam r + a')))%R)))).
        2:{ intros q Hq. rewrite upV_block by (auto; rewrite Em; auto). fold n. rewrite Em. rewrite <- rsum_scal. apply rsum_ext. intros j' Hj'. rewrite <- rsum_scal. apply rsum_ext. intros a' Ha'. ring. }
        rewrite rsum_swap, <- rsum_scal. apply rsum_ext. intros j' Hj'. rewrite rsum_swap, <- rsum_scal. apply rsum_ext. intros a' Ha'.
        rewrite rsum_scal. unfold rr at 3. rewrite (rho_mul n lam _ G) by (try apply is_perm_pcyc; lia). unfold mprod. fold (rr n lam). change (rho n (mkirr n lam)) with (rr n lam). ring. }
    pose proof (parents_sum k mu F Hmu) as PS. fold n in PS. rewrite PS. clear PS. unfold F. rewrite Ey. clearbody s j. clear y Ey Hy F.
    rewrite (lsum_ext _ _ (fun r => lsum (zrange 0 n) (fun j' => lsum (zrange 0 (dd k mu)) (fun a' =>
       (dimR n (padd mu r) / (dimR (lv k) mu * IZR n) * rr n (padd mu r) (pmul (pcyc n n (n - j)) (pcyc n (n - j') n)) (boff n (padd mu r) r + a) (boff n (padd mu r) r + a') * V mu a' (s * n + j')%Z c)%R)))).
    2:{ intros r _. rewrite rsum_lsum. apply lsum_ext. intros j' _. apply rsum_lsum. }
    rewrite lsum_swap. rewrite (lsum_ext _ _ (fun j' => lsum (zrange 0 (dd k mu)) (fun a' => ((if Z.eq_dec j' j then delta a' a else 0) * V mu a' (s * n + j')%Z c)%R))).
    2:{ intros j' Hj'. apply in_zrange in Hj'. rewrite lsum_swap. apply lsum_ext. intros a' Ha'. apply in_zrange in Ha'. rewrite lsum_scal_r. f_equal.
        pose proof (branching (lv k) mu (pmul (pcyc n n (n - j)) (pcyc n (n - j') n)) a a' P ltac:(lia)) as B. replace (lv k + 1) with n in B by lia.
        rewrite B; auto; [|apply is_perm_pmul; apply is_perm_pcyc; lia]. clear B. pose proof (cyc_moves n j j' ltac:(lia) Hj Hj') as CM.
        destruct (Z.eq_dec (img _ n) n) as [E|E], (Z.eq_dec j' j) as [E'|E'].
        - subst j'. rewrite pcyc_inverse by lia. assert (pid n = pid (lv k) ++ [lv k + 1]) as Ep.
          { rewrite !pid_zrange. replace n with (lv k + 1) by lia. rewrite zrange_snoc by lia. reflexivity. }
          rewrite Ep, removelast_snoc. destruct (mkirr_ok (lv k) mu P ltac:(lia)) as (_ & G). unfold rr. rewrite (rho_id (lv k) mu _ G) by auto. unfold delta. destruct (Z.eq_dec a a'), (Z.eq_dec a' a); congruence.
        - exfalso. apply E'. symmetry. tauto.
        - exfalso. apply E. apply CM. auto.
        - reflexivity. }
    rewrite (lsum_single _ j); [|apply NoDup_zrange|apply in_zrange; auto|].
    - destruct (Z.eq_dec j j) as [_|]; [|contradiction]. rewrite (lsum_single _ a); [|apply NoDup_zrange|apply in_zrange; auto|].
      + unfold delta. destruct (Z.eq_dec a a); [ring|contradiction].
      + intros a' _ Na. unfold delta. destruct (Z.eq_dec a' a); [contradiction|ring].
    - intros j' _ Nj. destruct (Z.eq_dec j' j); [contradiction|]. apply lsum_0. intros. ring.
  Qed.

  (* the columns of the full representation that survive *)
  Fixpoint embl (k : nat) (l : list Z) : list Z :=
    match k with O => [0] | S k' => concat (map (fun r => map (Z.add (boff (lv k) l r)) (embl k' (prem l r))) (subs m l)) end.

  Lemma zlen_embl k l : zlen (embl k l) = mlt m k l.
  Proof.
    revert l. induction k as [|k IH]; intros l; [reflexivity|]. cbn [embl]. rewrite zlen_concat_sum, mlt_S. unfold mls. f_equal. rewrite map_map. apply map_ext. intros r. rewrite zlen_map. apply IH.
  Qed.

  Definition emb (k : nat) (l : list Z) (y : Z) : Z := znth (embl k l) y 0.

  Lemma emb_block k l r c : In r (subs m l) -> 0 <= c < mlt m k (prem l r) -> emb (S k) l (jof m k l r + c) = boff (lv (S k)) l r + emb k (prem l r) c.
  Proof.
    intros Hr Hc. unfold emb. cbn [embl]. set (ls := map (fun r => map (Z.add (boff (lv (S k)) l r)) (embl k (prem l r))) (subs m l)).
    assert (jof m k l r = offset (map zlen ls) (Z.to_nat (idx r (subs m l)))) as ->.
    { unfold jof, mls. f_equal. unfold ls. rewrite map_map. apply map_ext. intros q. rewrite zlen_map, zlen_embl. reflexivity. }
    destruct (six m l r Hr) as (A & B).
    assert (nth (Z.to_nat (idx r (subs m l))) ls [] = map (Z.add (boff (lv (S k)) l r)) (embl k (prem l r))) as E.
    { unfold ls. rewrite (nth_indep _ [] (map (Z.add (boff (lv (S k)) l 0)) (embl k (prem l 0)))) by (rewrite map_length; auto).
      rewrite (map_nth (fun r => map (Z.add (boff (lv (S k)) l r)) (embl k (prem l r)))). rewrite B. reflexivity. }
    rewrite znth_concat.
    - rewrite E. rewrite (znth_map _ _ _ 0) by (rewrite zlen_embl; auto). reflexivity.
    - unfold ls. rewrite map_length. auto.
    - rewrite E, zlen_map, zlen_embl. auto.
  Qed.

  Lemma emb_range k l y : In l (qlist m (lv k)) -> 0 <= y < mlt m k l -> 0 <= emb k l y < dd k l.
  Proof.
    revert l y. induction k as [|k IH]; intros l y Hl Hy.
    - rewrite mlt_0 in Hy. replace y with 0 by lia. change (emb 0 l 0) with 0. replace (lv 0) with m in * by lia. rewrite qlist_seed in Hl by auto. destruct Hl as [<-|[]]. rewrite d_row by auto. lia.
    - destruct (jof_find m k l y Hy) as (r & c & Hr & Hc & ->). rewrite emb_block by auto. destruct (subs_qlist m Hm k l r Hl Hr) as (Hq & Hc').
      pose proof (proj1 (in_qlist m (lv (S k)) l ltac:(lia)) Hl) as (P & _). apply boff_bound; auto; [lia|]. replace (lv (S k) - 1) with (lv k) by lia. apply IH; auto.
  Qed.

  (* number of cosets of Sm in the group of level k *)
  Fixpoint ncos (k : nat) : Z := match k with O => 1 | S k' => lv k * ncos k' end.

  Lemma ncos_pos k : 0 < ncos k.
  Proof. induction k as [|k IH]; cbn [ncos]; nia. Qed.

  Lemma ncos_fact k : ncos k * zfact m = zfact (lv k).
  Proof.
    induction k as [|k IH]; [cbn [ncos]; replace (lv 0) with m by lia; lia|]. cbn [ncos]. rewrite (zfact_step (lv (S k))) by lia. replace (lv (S k) - 1) with (lv k) by lia. rewrite <- IH. ring.
  Qed.

  (* the transform at level k of the function with values f *)
  Definition fourV (f : Z -> R) (k : nat) (l : list Z) (i s y : Z) : R :=
    rsum (ncos k) (fun e => (f (s * ncos k + e)%Z * rr (lv k) l (pinv (elt (Z.to_nat (lv k)) (e * zfact m))) i (emb k l y))%R).

  Lemma fourV_0 f l i s y : In l (qlist m (lv 0)) -> 0 <= i < dd 0 l -> 0 <= y < mlt m 0 l -> fourV f 0 l i s y = f s.
  Proof.
    intros Hl Hi Hy. pose proof (proj1 (in_qlist m (lv 0) l ltac:(lia)) Hl) as (P & _). unfold fourV. cbn [ncos]. rewrite (rsum_single 1 0) by lia. rewrite Z.mul_0_l, elt_0.
    replace (Z.of_nat (Z.to_nat (lv 0)) + 1) with (lv 0 + 1) by lia. rewrite <- pid_zrange. rewrite pinv_pid by lia.
    destruct (mkirr_ok (lv 0) l P ltac:(lia)) as (_ & G). unfold rr. rewrite (rho_id _ _ _ G) by auto.
    replace (lv 0) with m in * by lia. rewrite qlist_seed in Hl by auto. destruct Hl as [<-|[]]. rewrite d_row in Hi by auto. rewrite mlt_0 in Hy. replace y with 0 by lia. replace i with 0 by lia.
    unfold emb, delta. cbn [embl]. change (znth [0] 0 0) with 0. destruct (Z.eq_dec 0 0); [|contradiction]. replace (s * 1 + 0) with s by lia. ring.
  Qed.

  Lemma rr_mul n l p q i j : is_part n l -> 1 <= n -> is_perm n p -> is_perm n q -> 0 <= i < io_d (mkirr n l) -> rr n l (pmul p q) i j = rsum (io_d (mkirr n l)) (fun k => (rr n l p i k * rr n l q k j)%R).
  Proof. intros P Hn Hp Hq Hi. destruct (mkirr_ok n l P Hn) as (_ & G). unfold rr. rewrite (rho_mul n l _ G) by auto. reflexivity. Qed.

  (* multiplying by a permutation of the smaller group stays in the block *)
  Lemma rr_sub n l g p r i c : is_part (n + 1) l -> 1 <= n -> is_perm (n + 1) g -> is_perm n p -> In r (corners l) -> 0 <= i < io_d (mkirr (n + 1) l) -> 0 <= c < io_d (mkirr n (prem l r)) ->
    rr (n + 1) l (pmul g (p ++ [n + 1])) i (boff (n + 1) l r + c) = rsum (io_d (mkirr n (prem l r))) (fun a => (rr (n + 1) l g i (boff (n + 1) l r + a) * rr n (prem l r) p a c)%R).
  Proof.
    intros P Hn Hg Hp Hr Hi Hc. rewrite rr_mul by (first [assumption|lia|apply is_perm_snoc; assumption]). rewrite (rsum_boff (n + 1)) by (auto; lia). rewrite (lsum_single _ r); [|apply NoDup_corners|auto|].
    - replace (n + 1 - 1) with n by lia. apply rsum_ext. intros a Ha. rewrite rr_boff by (first [lia|assumption|replace (n + 1 - 1) with n by lia; assumption]). destruct (Z.eq_dec r r); [|contradiction]. replace (n + 1 - 1) with n by lia. reflexivity.
    - intros r' Hr' Nr. replace (n + 1 - 1) with n by lia. rewrite rsum_lsum. apply lsum_0. intros a Ha. apply in_zrange in Ha. rewrite rr_boff by (first [lia|assumption|replace (n + 1 - 1) with n by lia; assumption]).
      destruct (Z.eq_dec r' r); [contradiction|ring].
  Qed.

  Theorem four_step f k l i s y : In l (qlist m (lv (S k))) -> 0 <= i < dd (S k) l -> 0 <= y < mlt m (S k) l -> 0 <= s -> upV m k (fourV f k) l i s y = fourV f (S k) l i s y.
  Proof.
    intros Hl Hi Hy Hs. destruct (jof_find m k l y Hy) as (r & c & Hr & Hc & ->). rewrite upV_block by auto. unfold fourV at 2. rewrite emb_block by auto. cbn [ncos]. pose proof (ncos_pos k) as NP. rewrite rsum_prod by lia.
    apply rsum_ext. intros j Hj. destruct (subs_qlist m Hm k l r Hl Hr) as (Hq & Hc'). pose proof (proj1 (in_qlist m (lv (S k)) l ltac:(lia)) Hl) as (P & _).
    unfold fourV. rewrite (rsum_ext _ _ (fun a => rsum (ncos k) (fun e => (f ((s * lv (S k) + j) * ncos k + e)%Z * (rr (lv (S k)) l (pcyc (lv (S k)) (lv (S k) - j) (lv (S k))) i (boff (lv (S k)) l r + a) * rr (lv k) (prem l r) (pinv (elt (Z.to_nat (lv k)) (e * zfact m))) a (emb k (prem l r) c)))%R))).
    2:{ intros a Ha. rewrite <- rsum_scal. apply rsum_ext. intros. ring. }
    rewrite rsum_swap. apply rsum_ext. intros e He. rewrite rsum_scal. replace ((s * lv (S k) + j) * ncos k + e) with (s * (lv (S k) * ncos k) + (j * ncos k + e)) by ring. f_equal.
    replace ((j * ncos k + e) * zfact m) with (j * zfact (lv k) + e * zfact m) by (rewrite <- ncos_fact; ring).
    replace (lv (S k)) with (lv k + 1) in * by lia. pose proof (zfact_pos m). pose proof (ncos_fact k).
    rewrite pinv_elt_split by (first [lia|nia]). symmetry. apply rr_sub; auto; try lia.
    - apply is_perm_pcyc; lia.
    - apply is_perm_pinv. replace (lv k) with (Z.of_nat (Z.to_nat (lv k))) at 1 by lia. apply is_perm_elt.
    - apply emb_range; auto.
  Qed.
End Math.
