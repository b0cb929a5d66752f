(* Tensor products of irreps: the multiplicities are integers, and they decompose the product of two characters. *)
From Coq Require Import ZArith List Bool Lia ZifyBool Permutation Reals Lra.
From Verif Require Import Model_Base Model_Sn Model_Perm Model_Part Model_Tab Model_Irrep.
From Verif Require Import Spec_Perm Spec_Part Spec_Tab Spec_Rep Spec_Four.
From Verif Require Import Proof_Base Proof_Perm Proof_Sn Proof_SnProps Proof_Part Proof_PartProps Proof_Tab Proof_TabProps Proof_Cycles Proof_Cox Proof_Yor Proof_Sum Proof_Irrep Proof_Rep Proof_Mat Proof_IrrepProps Proof_JM Proof_Conn Proof_Schur Proof_Restr Proof_UpDown Proof_Complete Proof_Char.
Import ListNotations.
Open Scope R_scope.

(* ---- the trace of a symmetric idempotent matrix is a natural number ---- *)
Section Idem.
  Context {A : Type}.
  Variable X : list A.

  Definition symm (P : A -> A -> R) : Prop := forall a b, In a X -> In b X -> P a b = P b a.
  Definition idem (P : A -> A -> R) : Prop := forall a c, In a X -> In c X -> lsum X (fun b => P a b * P b c) = P a c.
  Definition tr (P : A -> A -> R) : R := lsum X (fun a => P a a).

  Lemma diag_sq P a : symm P -> idem P -> In a X -> P a a = lsum X (fun b => P a b * P a b).
  Proof. intros S I H. rewrite <- (I a a) by auto. apply lsum_ext. intros b Hb. rewrite (S b a) by auto. ring. Qed.

  Lemma diag_nonneg P a : symm P -> idem P -> In a X -> 0 <= P a a.
  Proof. intros S I H. rewrite (diag_sq P a) by auto. apply lsum_nonneg. intros b _. apply Rle_0_sqr. Qed.

  Lemma tr_nonneg P : symm P -> idem P -> 0 <= tr P.
  Proof. intros S I. apply lsum_nonneg. intros a Ha. apply diag_nonneg; auto. Qed.

  Lemma diag_pick (f : A -> R) Y : (forall a, In a Y -> f a = 0) \/ exists a, In a Y /\ f a <> 0.
  Proof. induction Y as [|y Y [IH|(a & Ha & H)]]; [left; intros a []| |right; exists a; cbn; auto]. destruct (Req_dec (f y) 0) as [H|H]; [left; intros a [<-|Ha]; auto|right; exists y; cbn; auto]. Qed.

  Lemma idem_trace N : forall P, symm P -> idem P -> tr P < INR N -> exists k, tr P = INR k.
  Proof.
    induction N as [|N IH]; intros P S I H; [pose proof (tr_nonneg P S I); cbn in H; lra|].
    destruct (diag_pick (fun a => P a a) X) as [Z0|(c & Hc & W)].
    - exists 0%nat. unfold tr. rewrite lsum_0; auto.
    - pose proof (diag_nonneg P c S I Hc) as W0. set (w := P c c) in *.
      set (P1 := fun a b => P a b - P a c * P b c / w).
      assert (tr P1 = tr P - 1) as T. { unfold tr, P1. rewrite lsum_minus. f_equal. rewrite (lsum_ext _ _ (fun a => P c a * P a c * / w)). - rewrite lsum_scal_r, I by auto. fold w. field; auto. - intros a Ha. rewrite (S c a) by auto. unfold Rdiv. ring. }
      destruct (IH P1) as (k & E).
      + intros a b Ha Hb. unfold P1. rewrite (S a b) by auto. field; auto.
      + intros a d Ha Hd. unfold P1.
        rewrite (lsum_ext _ _ (fun b => P a b * P b d - (P a b * P b c) * (P d c / w) - (P c b * P b d) * (P a c / w) + (P c b * P b c) * (P a c * P d c / (w * w)))).
        * rewrite lsum_plus, !lsum_minus, !lsum_scal_r, !I by auto. rewrite (S c d) by auto. fold w. field; auto.
        * intros b Hb. rewrite (S c b) by auto. field; auto.
      + rewrite T. rewrite S_INR in H. lra.
      + exists (Datatypes.S k). rewrite S_INR. lra.
  Qed.

  Lemma idem_trace_nat P : symm P -> idem P -> exists k, tr P = INR k.
  Proof.
    intros S I. destruct (archimed (tr P)) as (A1 & _). pose proof (tr_nonneg P S I) as N.
    assert (0 <= up (tr P))%Z by (apply le_IZR; lra). apply (idem_trace (Z.to_nat (up (tr P)))); auto. rewrite INR_IZR_INZ. replace (Z.of_nat (Z.to_nat (up (tr P)))) with (up (tr P)) by lia. auto.
  Qed.
End Idem.

(* ---- characters ---- *)
Notation dd n l := (io_d (mkirr n l)).
Definition chi (n : Z) (l p : list Z) : R := trace (dd n l) (rr n l p).

Lemma is_perm_pid' n : (0 <= n)%Z -> is_perm n (pid n). Proof. apply is_perm_pid. Qed.

Section Chi.
  Variables (n : Z) (Hn : (1 <= n)%Z).
  Let L := all_perms n.
  Let HL : lists_Sn n L.
  Proof. apply all_perms_lists. lia. Qed.

  Lemma in_L p : In p L <-> is_perm n p. Proof. apply HL. Qed.

  Lemma rr_mul l p q i j : is_part n l -> is_perm n p -> is_perm n q -> (0 <= i < dd n l)%Z -> rr n l (pmul p q) i j = rsum (dd n l) (fun k => rr n l p i k * rr n l q k j).
  Proof. intros P Hp Hq Hi. destruct (mkirr_ok n l P Hn) as (_ & G). unfold rr. rewrite (rho_mul n l _ G) by auto. reflexivity. Qed.
  Lemma rr_inv l p i j : is_part n l -> is_perm n p -> (0 <= i < dd n l)%Z -> (0 <= j < dd n l)%Z -> rr n l (pinv p) i j = rr n l p j i.
  Proof. intros P Hp Hi Hj. destruct (mkirr_ok n l P Hn) as (_ & G). unfold rr. apply (rho_inv n l _ G); auto. Qed.
  Lemma rr_id l i j : is_part n l -> (0 <= i < dd n l)%Z -> rr n l (pid n) i j = delta i j.
  Proof. intros P Hi. destruct (mkirr_ok n l P Hn) as (_ & G). unfold rr. apply (rho_id n l _ G); auto. Qed.

  Lemma rr_schur l l' i j k m : is_part n l -> is_part n l' -> (0 <= i < dd n l)%Z -> (0 <= j < dd n l)%Z -> (0 <= k < dd n l)%Z -> (0 <= m < dd n l)%Z ->
    lsum L (fun p => rr n l p i j * rr n l p k m) = (if Z.eq_dec i k then if Z.eq_dec j m then IZR (zfact n) / dimR n l else 0 else 0).
  Proof. intros P P' Hi Hj Hk Hm. destruct (mkirr_ok n l P Hn) as (_ & G). apply (mm_same n l (mkirr n l) L Hn G HL i j k m); auto. Qed.

  Lemma fact_pos : 0 < IZR (zfact n). Proof. apply IZR_lt. apply zfact_pos. Qed.

  (* conjugated matrix element, as a sum *)
  Lemma rr_conj l g p i j : is_part n l -> is_perm n g -> is_perm n p -> (0 <= i < dd n l)%Z -> (0 <= j < dd n l)%Z ->
    rr n l (pmul g (pmul p (pinv g))) i j = rsum (dd n l) (fun k => rsum (dd n l) (fun m => rr n l g i k * rr n l g j m * rr n l p k m)).
  Proof.
    intros P Hg Hp Hi Hj. pose proof (is_perm_pinv n g Hg) as Hg'. rewrite rr_mul; auto; [|apply is_perm_pmul; auto]. apply rsum_ext. intros k Hk. rewrite rr_mul by auto. rewrite !rsum_lsum, <- lsum_scal. apply lsum_ext. intros m Hm. apply in_zrange in Hm. rewrite rr_inv by auto. ring.
  Qed.

  Lemma rsum_Kr d k f : (0 <= k < d)%Z -> rsum d (fun m => if Z.eq_dec k m then f m else 0) = f k.
  Proof. intros H. rewrite rsum_lsum, (lsum_single _ k); [|apply NoDup_zrange|apply in_zrange; auto|]. - destruct (Z.eq_dec k k); [auto|contradiction]. - intros y _ Ne. destruct (Z.eq_dec k y); [congruence|auto]. Qed.

  (* averaging over the group *)
  Lemma rr_average l p i j : is_part n l -> is_perm n p -> (0 <= i < dd n l)%Z -> (0 <= j < dd n l)%Z ->
    lsum L (fun g => rr n l (pmul g (pmul p (pinv g))) i j) = if Z.eq_dec i j then IZR (zfact n) / dimR n l * chi n l p else 0.
  Proof.
    intros P Hp Hi Hj. rewrite (lsum_ext _ _ (fun g => lsum (zrange 0 (dd n l)) (fun k => lsum (zrange 0 (dd n l)) (fun m => rr n l g i k * rr n l g j m * rr n l p k m)))).
    2:{ intros g Hg. apply in_L in Hg. rewrite rr_conj by auto. rewrite rsum_lsum. apply lsum_ext. intros k _. apply rsum_lsum. }
    rewrite lsum_swap.
    rewrite (lsum_ext _ _ (fun k => if Z.eq_dec i j then IZR (zfact n) / dimR n l * rr n l p k k else 0)).
    - destruct (Z.eq_dec i j); [|apply lsum_0; auto]. rewrite lsum_scal. unfold chi, trace. rewrite rsum_lsum. auto.
    - intros k Hk. apply in_zrange in Hk. rewrite lsum_swap.
      rewrite (lsum_ext _ _ (fun m => if Z.eq_dec k m then (if Z.eq_dec i j then IZR (zfact n) / dimR n l * rr n l p k m else 0) else 0)).
      + rewrite <- rsum_lsum. apply (rsum_Kr _ _ (fun m => if Z.eq_dec i j then IZR (zfact n) / dimR n l * rr n l p k m else 0)); auto.
      + intros m Hm. apply in_zrange in Hm. rewrite lsum_scal_r, (rr_schur l l) by auto. destruct (Z.eq_dec i j), (Z.eq_dec k m); ring.
  Qed.

  Definition class_fun (phi : list Z -> R) : Prop := forall g p, is_perm n g -> is_perm n p -> phi (pmul g (pmul p (pinv g))) = phi p.

  Lemma chi_class l : is_part n l -> class_fun (chi n l).
  Proof.
    intros P g p Hg Hp. unfold chi, trace. rewrite (rsum_ext _ (fun i => rr n l (pmul g (pmul p (pinv g))) i i) (fun i => rsum (dd n l) (fun k => rsum (dd n l) (fun m => rr n l g i k * rr n l g i m * rr n l p k m)))) by (intros i Hi; apply rr_conj; auto).
    rewrite rsum_lsum. rewrite (lsum_ext _ _ (fun i => lsum (zrange 0 (dd n l)) (fun k => lsum (zrange 0 (dd n l)) (fun m => rr n l g i k * rr n l g i m * rr n l p k m)))) by (intros i _; rewrite rsum_lsum; apply lsum_ext; intros k _; apply rsum_lsum).
    rewrite lsum_swap, rsum_lsum. apply lsum_ext. intros k Hk. apply in_zrange in Hk. rewrite lsum_swap.
    rewrite (lsum_ext _ _ (fun m => rr n l p k m * delta m k)).
    - rewrite <- rsum_lsum. apply rsum_delta; auto.
    - intros m Hm. apply in_zrange in Hm. rewrite lsum_scal_r. destruct (mkirr_ok n l P Hn) as (_ & G). pose proof (rho_orth n l _ G g k m Hg Hk Hm) as O. rewrite rsum_lsum in O. unfold rr at 1 2. rewrite O. unfold delta. destruct (Z.eq_dec k m), (Z.eq_dec m k); try congruence; ring.
  Qed.

  (* reindexing by conjugation *)
  Lemma sum_conj g f : is_perm n g -> lsum L (fun p => f (pmul g (pmul p (pinv g)))) = lsum L f.
  Proof.
    intros Hg. pose proof (is_perm_pinv n g Hg) as Hg'. rewrite (sum_right n L HL (pinv g) (fun p => f (pmul g p))) by auto. apply (sum_left n L HL g f); auto.
  Qed.

  Lemma lsum_zlen_L : IZR (zlen L) = IZR (zfact n). Proof. rewrite (lists_Sn_len n L); auto; lia. Qed.

  Lemma class_coeff phi l i j : class_fun phi -> is_part n l -> (0 <= i < dd n l)%Z -> (0 <= j < dd n l)%Z ->
    lsum L (fun h => phi h * rr n l h i j) = if Z.eq_dec i j then / dimR n l * lsum L (fun h => phi h * chi n l h) else 0.
  Proof.
    intros C P Hi Hj. pose proof fact_pos as F. pose proof (dimR_pos n l P Hn) as D.
    apply (Rmult_eq_reg_l (IZR (zfact n))); [|lra]. rewrite <- lsum_zlen_L at 1. rewrite <- (lsum_const L).
    rewrite (lsum_ext L _ (fun g => lsum L (fun h => phi h * rr n l (pmul g (pmul h (pinv g))) i j))).
    2:{ intros g Hg. apply in_L in Hg. rewrite <- (sum_conj g) by auto. apply lsum_ext. intros h Hh. apply in_L in Hh. rewrite C by auto. auto. }
    rewrite lsum_swap. rewrite (lsum_ext L _ (fun h => if Z.eq_dec i j then IZR (zfact n) / dimR n l * (phi h * chi n l h) else 0)).
    2:{ intros h Hh. apply in_L in Hh. rewrite lsum_scal, rr_average by auto. destruct (Z.eq_dec i j); ring. }
    destruct (Z.eq_dec i j); [|rewrite lsum_0 by auto; ring]. rewrite lsum_scal. field. lra.
  Qed.

  (* class functions are sums of characters *)
  Lemma class_decompose phi p : class_fun phi -> is_perm n p ->
    phi p = lsum (plist (Z.to_nat (n - 1))) (fun l => lsum L (fun h => phi h * chi n l h) / IZR (zfact n) * chi n l p).
  Proof.
    intros C Hp. rewrite (inversion n L phi p Hn HL Hp) at 1. apply lsum_ext. intros l Hl. rewrite plist_spec in Hl. replace (Z.of_nat (Z.to_nat (n - 1)) + 1)%Z with n in Hl by lia.
    pose proof fact_pos as F. pose proof (dimR_pos n l Hl Hn) as D.
    rewrite (rsum_ext _ _ (fun i => / dimR n l * lsum L (fun h => phi h * chi n l h) * rr n l p i i)).
    - rewrite rsum_lsum, lsum_scal. change (chi n l p) with (rsum (dd n l) (fun i => rr n l p i i)). rewrite rsum_lsum. field. lra.
    - intros i Hi. rewrite (rsum_ext _ _ (fun j => if Z.eq_dec i j then / dimR n l * lsum L (fun h => phi h * chi n l h) * rr n l p i j else 0)).
      + apply (rsum_Kr _ _ (fun j => / dimR n l * lsum L (fun h => phi h * chi n l h) * rr n l p i j)); auto.
      + intros j Hj. rewrite class_coeff by auto. destruct (Z.eq_dec i j); ring.
  Qed.

  (* ---- multiplicities ---- *)
  Definition kron (a b c : list Z) : R := lsum L (fun p => chi n a p * chi n b p * chi n c p) / IZR (zfact n).

  Lemma kron_decompose a b p : is_part n a -> is_part n b -> is_perm n p ->
    chi n a p * chi n b p = lsum (plist (Z.to_nat (n - 1))) (fun c => kron a b c * chi n c p).
  Proof.
    intros Pa Pb Hp. apply (class_decompose (fun q => chi n a q * chi n b q)); auto. intros g q Hg Hq. rewrite !chi_class by auto. auto.
  Qed.

  Lemma chi_id l : is_part n l -> chi n l (pid n) = dimR n l.
  Proof.
    intros P. unfold chi, trace. rewrite (rsum_ext _ _ (fun _ => 1)).
    - rewrite rsum_lsum, lsum_const, zlen_zrange. unfold dimR. rewrite Rmult_1_r. f_equal. pose proof (io_d_nonneg (mkirr n l)). lia.
    - intros i Hi. rewrite rr_id by auto. unfold delta. destruct (Z.eq_dec i i); [auto|contradiction].
  Qed.

  Lemma kron_perm a b c a' b' c' : Permutation [a; b; c] [a'; b'; c'] -> kron a b c = kron a' b' c'.
  Proof.
    intros H. unfold kron. f_equal. apply lsum_ext. intros p _.
    assert (forall x y z, chi n x p * chi n y p * chi n z p = fold_right Rmult 1 (map (fun x => chi n x p) [x; y; z])) as E by (intros; cbn; ring). rewrite !E.
    clear E. revert H. generalize [a; b; c] as u, [a'; b'; c'] as v. induction 1; cbn; auto; try congruence; try lra.
  Qed.

  Section Int.
    Variables (a b c : list Z) (Pa : is_part n a) (Pb : is_part n b) (Pc : is_part n c).
    Let X : list (Z * (Z * Z)) := flat_map (fun i => map (pair i) (flat_map (fun j => map (pair j) (zrange 0 (dd n c))) (zrange 0 (dd n b)))) (zrange 0 (dd n a)).
    Definition tens (p : list Z) (x y : Z * (Z * Z)) : R := rr n a p (fst x) (fst y) * (rr n b p (fst (snd x)) (fst (snd y)) * rr n c p (snd (snd x)) (snd (snd y))).

    Lemma in_X x : In x X <-> (0 <= fst x < dd n a)%Z /\ (0 <= fst (snd x) < dd n b)%Z /\ (0 <= snd (snd x) < dd n c)%Z.
    Proof.
      destruct x as (i & j & k). unfold X. rewrite in_flat_map. cbn [fst snd]. split.
      - intros (i' & Hi & H). apply in_map_iff in H as ((j' & k') & E & H). injection E as -> -> ->. apply in_zrange in Hi. apply in_flat_map in H as (j' & Hj & H). apply in_map_iff in H as (k' & E & H). injection E as -> ->. apply in_zrange in Hj, H. auto.
      - intros (Hi & Hj & Hk). exists i. split; [apply in_zrange; auto|]. apply in_map. apply in_flat_map. exists j. split; [apply in_zrange; auto|]. apply in_map, in_zrange; auto.
    Qed.

    Lemma lsum_X (f : Z * (Z * Z) -> R) : lsum X f = lsum (zrange 0 (dd n a)) (fun i => lsum (zrange 0 (dd n b)) (fun j => lsum (zrange 0 (dd n c)) (fun k => f (i, (j, k))))).
    Proof. unfold X. rewrite lsum_flat_map. apply lsum_ext. intros i _. rewrite lsum_map, lsum_flat_map. apply lsum_ext. intros j _. rewrite lsum_map. auto. Qed.

    Lemma lsum_prod3 (f g h : Z -> R) : lsum X (fun x => f (fst x) * (g (fst (snd x)) * h (snd (snd x)))) = rsum (dd n a) f * (rsum (dd n b) g * rsum (dd n c) h).
    Proof.
      rewrite lsum_X, !rsum_lsum. cbn [fst snd]. rewrite <- lsum_scal_r. apply lsum_ext. intros i _. rewrite <- lsum_scal_r, <- lsum_scal. apply lsum_ext. intros j _. rewrite <- !lsum_scal. apply lsum_ext. intros k _. ring.
    Qed.

    Lemma tens_mul p q x z : is_perm n p -> is_perm n q -> In x X -> lsum X (fun y => tens p x y * tens q y z) = tens (pmul p q) x z.
    Proof.
      intros Hp Hq Hx. apply in_X in Hx as (A & B & C). unfold tens at 3. rewrite !rr_mul by auto. rewrite <- lsum_prod3. apply lsum_ext. intros y _. unfold tens. ring.
    Qed.

    Let P (x y : Z * (Z * Z)) : R := lsum L (fun p => tens p x y) / IZR (zfact n).

    Lemma P_symm : symm X P.
    Proof.
      intros x y Hx Hy. unfold P. f_equal. rewrite <- (sum_inv n L HL). apply lsum_ext. intros p Hp. apply in_L in Hp. apply in_X in Hx as (A & B & C). apply in_X in Hy as (A' & B' & C'). unfold tens. rewrite !rr_inv by auto. ring.
    Qed.

    Lemma P_idem : idem X P.
    Proof.
      intros x z Hx Hz. unfold P. pose proof fact_pos as F. set (N := IZR (zfact n)) in *.
      rewrite (lsum_ext _ _ (fun y => lsum L (fun p => lsum L (fun q => tens p x y * tens q y z)) * (/ N * / N))).
      2:{ intros y _. unfold Rdiv. replace (lsum L (fun p => lsum L (fun q => tens p x y * tens q y z))) with (lsum L (fun p => tens p x y) * lsum L (fun q => tens q y z)). - ring. - rewrite <- lsum_scal_r. apply lsum_ext. intros p _. rewrite <- lsum_scal. auto. }
      rewrite lsum_scal_r, lsum_swap.
      rewrite (lsum_ext L _ (fun p => lsum L (fun q => tens q x z))).
      2:{ intros p Hp. apply in_L in Hp. rewrite lsum_swap. rewrite <- (sum_left n L HL p (fun q => tens q x z)) by auto. apply lsum_ext. intros q Hq. apply in_L in Hq. apply tens_mul; auto. }
      rewrite lsum_const, lsum_zlen_L. fold N. field. lra.
    Qed.

    Lemma kron_trace : tr X P = kron a b c.
    Proof.
      unfold tr, P, kron, Rdiv. rewrite lsum_scal_r. f_equal. rewrite lsum_swap. apply lsum_ext. intros p _. unfold tens. rewrite (lsum_prod3 (fun i => rr n a p i i) (fun j => rr n b p j j) (fun k => rr n c p k k)). unfold chi, trace. ring.
    Qed.

    Lemma kron_nat : exists k, kron a b c = INR k.
    Proof. rewrite <- kron_trace. apply idem_trace_nat; [apply P_symm|apply P_idem]. Qed.
  End Int.
End Chi.
