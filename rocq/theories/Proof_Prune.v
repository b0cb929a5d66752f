(* The pruning of Clebsch-Gordan products: an irrep whose first row is too short does not occur. *)
From Coq Require Import ZArith List Bool Lia ZifyBool Permutation Reals Lra.
From Verif Require Import Model_Base Model_Sn Model_Perm Model_Part Model_Tab Model_Irrep.
From Verif Require Import Spec_Perm Spec_Part Spec_Tab Spec_Rep Spec_Four.
From Verif Require Import Proof_Base Proof_Perm Proof_Sn Proof_SnProps Proof_Part Proof_PartProps Proof_Tab Proof_TabProps Proof_Cycles Proof_Cox Proof_Yor Proof_Sum Proof_Irrep Proof_Rep Proof_Mat Proof_IrrepProps Proof_JM Proof_Conn Proof_Schur Proof_Restr Proof_UpDown Proof_Complete Proof_Char Proof_Class Proof_Class2 Proof_Kron.
Import ListNotations.
Open Scope Z_scope.

(* a tableau with 1, 2, ... in its first row *)
Lemma row_tableau k : forall l, is_part (Z.of_nat k) l -> exists t, standard l t /\ forall v, 1 <= v <= row l 0 -> cont t v = v - 1.
Proof.
  induction k as [|k IH]; intros l P.
  - destruct (standard_exists 0 l P) as (t & St). exists t. split; auto. intros v Hv. exfalso. destruct l as [|x l]; [cbn in Hv; lia|]. pose proof (is_part_ppos _ _ P) as Pp. pose proof (is_part_sum _ _ P) as Sm. pose proof (Pp x (or_introl eq_refl)). apply ppos_inv in Pp as (_ & Pp). pose proof (zsum_ppos l Pp). change (zsum (x :: l)) with (x + zsum l) in Sm. lia.
  - pose proof (is_part_ppos _ _ P) as Pp. pose proof (is_part_sum _ _ P) as Sm. assert (1 <= zlen l) as Ln. { destruct l as [|x l]; [cbn in Sm; lia|]. unfold zlen; cbn [length]; lia. }
    set (r := zlen l - 1). assert (In r (corners l)) as Hr. { apply in_corners. unfold r. split; [lia|]. replace (zlen l - 1 + 1) with (zlen l) by lia. rewrite (row_out l (zlen l)) by lia. assert (In (row l (zlen l - 1)) l) as K by (apply znth_In; lia). apply Pp in K. lia. }
    pose proof (corner_part _ _ _ P Hr) as Pr. replace (Z.of_nat (S k) - 1) with (Z.of_nat k) in Pr by lia. destruct (IH _ Pr) as (t & St & C).
    exists (yadd t r (Z.of_nat (S k))). split; [apply (corner_standard _ _ _ _ P Hr St)|]. intros v Hv.
    assert (row l 0 <= Z.of_nat (S k)) as LE. { destruct l as [|x l]; [cbn in Ln; lia|]. apply ppos_inv in Pp as (_ & Pp). pose proof (zsum_ppos l Pp). change (zsum (x :: l)) with (x + zsum l) in Sm. change (row (x :: l) 0) with x. lia. }
    rewrite (cont_yadd _ l r t v P) by (auto; lia). pose proof (row_prem l r 0 Pp ltac:(lia) ltac:(lia)) as R0. destruct (Z.eqb_spec v (Z.of_nat (S k))) as [->|Nv].
    + assert (row l 0 = Z.of_nat (S k)) as E by lia. assert (r = 0) as ->. { destruct (Z.eq_dec r 0); auto. exfalso. destruct l as [|x [|y l]]; [cbn in Ln; lia|cbn in r; lia|]. change (row (x :: y :: l) 0) with x in E. pose proof (Pp y ltac:(cbn; auto)). apply ppos_inv in Pp as (_ & Pp). apply ppos_inv in Pp as (_ & Pp). pose proof (zsum_ppos l Pp). change (zsum (x :: y :: l)) with (x + (y + zsum l)) in Sm. lia. } lia.
    + apply C. rewrite R0. destruct (Z.eqb_spec 0 r); [|lia]. destruct l as [|x [|y l]]; [cbn in Ln; lia| |unfold r, zlen in *; cbn [length] in *; lia]. change (row [x] 0) with x in *. change (zsum [x]) with (x + 0) in Sm. lia.
Qed.

(* the content m-1 at m needs a first row of m boxes *)
Lemma content_row n l t m : is_part n l -> standard l t -> 1 <= m <= n -> cont t m = m - 1 -> m <= row l 0.
Proof.
  intros P S Hm C. destruct (standard_pos n l t m P S Hm) as (r & c & Ce & _ & E). apply cell_iff in Ce as (Hr & Hc & Hc'). pose proof (is_part_anti n l 0 r P ltac:(lia)). lia.
Qed.

(* many points *)
Lemma filter_both {A} (f g : A -> bool) X : (length (filter f X) + length (filter g X) <= length (filter (fun x => f x && g x) X) + length X)%nat.
Proof. induction X as [|x X IH]; cbn; [lia|]. destruct (f x), (g x); cbn; lia. Qed.

Lemma filter_map_len {A B} (f : A -> B) (P : B -> bool) X : length (filter P (map f X)) = length (filter (fun x => P (f x)) X).
Proof. induction X as [|x X IH]; cbn; auto. destruct (P (f x)); cbn; lia. Qed.

Lemma filter_Permutation {A} (P : A -> bool) X Y : Permutation X Y -> length (filter P X) = length (filter P Y).
Proof. induction 1; cbn; auto; try congruence. - destruct (P x); cbn; lia. - destruct (P x), (P y); cbn; lia. Qed.

Lemma zrange_below a : forall n, 0 <= a <= n -> Z.of_nat (length (filter (fun x => x <=? a) (zrange 1 (n + 1)))) = a.
Proof.
  intros n H. rewrite (zrange_app 1 (a + 1) (n + 1)) by lia. rewrite filter_app, app_length.
  assert (forall lo hi, hi <= a + 1 -> filter (fun x => x <=? a) (zrange lo hi) = zrange lo hi) as E1. { intros lo hi Hh. assert (forall X, (forall x, In x X -> (x <=? a) = true) -> filter (fun x => x <=? a) X = X) as Q. { induction X as [|x X IH]; cbn; auto. intros K. rewrite (K x) by auto. f_equal. auto. } apply Q. intros x Hx. apply in_zrange in Hx. lia. }
  assert (forall lo hi, a + 1 <= lo -> filter (fun x => x <=? a) (zrange lo hi) = []) as E2. { intros lo hi Hh. assert (forall X, (forall x, In x X -> (x <=? a) = false) -> filter (fun x => x <=? a) X = []) as Q. { induction X as [|x X IH]; cbn; auto. intros K. rewrite (K x) by auto. auto. } apply Q. intros x Hx. apply in_zrange in Hx. lia. }
  rewrite E1, E2 by lia. cbn [length]. pose proof (zlen_zrange 1 (a + 1)) as Q. unfold zlen in Q. lia.
Qed.

Lemma map_img_pts n s : is_perm n s -> Permutation (map (img s) (pts n)) (pts n).
Proof.
  intros Hs. apply NoDup_Permutation_bis.
  - apply NoDup_map_inj_in; [|apply pts_nodup]. intros x y Hx Hy E. apply in_pts in Hx, Hy. eapply img_inj; eauto.
  - rewrite map_length. auto.
  - intros y Hy. apply in_map_iff in Hy as (x & <- & Hx). apply in_pts in Hx. apply in_pts. apply is_perm_img; auto.
Qed.

Lemma many_points n s t a b : is_perm n s -> is_perm n t -> 0 <= a <= n -> 0 <= b <= n ->
  exists q, is_perm n q /\ forall i, 1 <= i <= a + b - n -> img s (img q i) <= a /\ img t (img q i) <= b.
Proof.
  intros Hs Ht Ha Hb. pose proof (is_perm_nonneg n s Hs) as Hn. set (f := fun x => img s x <=? a). set (g := fun x => img t x <=? b). set (h := fun x => f x && g x).
  pose proof (filter_both f g (pts n)) as B. fold h in B.
  assert (Z.of_nat (length (filter f (pts n))) = a) as F. { unfold f. rewrite <- (filter_map_len (img s) (fun x => x <=? a)). rewrite (filter_Permutation _ _ _ (map_img_pts n s Hs)). apply zrange_below; auto. }
  assert (Z.of_nat (length (filter g (pts n))) = b) as G. { unfold g. rewrite <- (filter_map_len (img t) (fun x => x <=? b)). rewrite (filter_Permutation _ _ _ (map_img_pts n t Ht)). apply zrange_below; auto. }
  assert (Z.of_nat (length (pts n)) = n) as Lp. { unfold pts. pose proof (zlen_zrange 1 (n + 1)) as Q. unfold zlen in Q. lia. }
  set (q := filter h (pts n) ++ filter (fun x => negb (h x)) (pts n)). exists q. split.
  - apply perm_pts. split; auto. unfold q. clear. induction (pts n) as [|x X IH]; cbn; auto. destruct (h x); cbn; [constructor; auto|]. eapply perm_trans; [apply Permutation_sym, Permutation_middle|]. constructor; auto.
  - intros i Hi. assert (In (img q i) (filter h (pts n))) as K. { unfold img, q, znth. rewrite app_nth1 by lia. apply nth_In. lia. } apply filter_In in K as (_ & K). unfold h, f, g in K. lia.
Qed.

Open Scope R_scope.

Section Prune.
  Variables (n : Z) (Hn : (1 <= n)%Z).
  Let L := all_perms n.
  Let HL : lists_Sn n L.
  Proof. apply all_perms_lists. lia. Qed.

  Lemma lsum_le_const {A} (X : list A) (f : A -> R) : (forall x, In x X -> f x <= 1) -> lsum X f = IZR (zlen X) -> forall x, In x X -> f x = 1.
  Proof.
    intros H E x Hx. assert (lsum X (fun x => 1 - f x) = 0) as Z0. { rewrite lsum_minus, lsum_const, E. ring. }
    pose proof (lsum_nonneg_0 X (fun x => 1 - f x) (fun y Hy => ltac:(specialize (H y Hy); lra)) Z0 x Hx). lra.
  Qed.

  Lemma lsum_ge_one {A} (X : list A) (f : A -> R) u : (forall x, In x X -> 0 <= f x) -> In u X -> f u <= lsum X f.
  Proof.
    induction X as [|z X IH]; intros H I; [destruct I|]. rewrite lsum_cons. destruct I as [->|I].
    - assert (0 <= lsum X f) by (apply lsum_nonneg; intros; apply H; right; auto). lra.
    - specialize (IH (fun x Hx => H x (or_intror Hx)) I). pose proof (H z (or_introl eq_refl)). lra.
  Qed.

  (* the tableau with 1..l_1 in its first row is fixed by the transpositions of 1..l_1 *)
  Lemma fixed_column l : is_part n l -> exists u, (0 <= u < dd n l)%Z /\
    forall x y k, (1 <= x <= row l 0)%Z -> (1 <= y <= row l 0)%Z -> x <> y -> (0 <= k < dd n l)%Z -> rr n l (ptransp n x y) k u = delta k u.
  Proof.
    intros P. destruct (mkirr_ok n l P Hn) as (_ & G). destruct (row_tableau (Z.to_nat n) l) as (t & St & C); [replace (Z.of_nat (Z.to_nat n)) with n by lia; auto|].
    destruct (pos_standard n l _ t G St) as (Bu & Eu). exists (pos (mkirr n l) t). split; auto. set (u := pos (mkirr n l) t) in *.
    assert (row l 0 <= n)%Z as R0. { pose proof (is_part_ppos _ _ P) as Pp. pose proof (is_part_sum _ _ P) as Sm. destruct l as [|z l]; [cbn; lia|]. apply ppos_inv in Pp as (_ & Pp). pose proof (zsum_ppos l Pp). change (zsum (z :: l)) with (z + zsum l)%Z in Sm. change (row (z :: l) 0) with z. lia. }
    assert (forall x y k, (1 <= x)%Z -> (x < y)%Z -> (y <= row l 0)%Z -> (0 <= k < dd n l)%Z -> rr n l (ptransp n x y) k u = delta k u) as K.
    { intros x y k H1 H2 H3 Hk.
      assert (forall a, (1 <= a < y)%Z -> rsum (dd n l) (fun k => rr n l (ptransp n a y) k u * rr n l (ptransp n a y) k u) = 1) as O. { intros a Ha. pose proof (rho_orth n l _ G (ptransp n a y) u u (is_perm_ptransp n a y ltac:(lia) ltac:(lia)) Bu Bu) as O. unfold rr. rewrite O. unfold delta. destruct (Z.eq_dec u u); [auto|contradiction]. }
      assert (rr n l (ptransp n x y) u u = 1) as D.
      { apply (lsum_le_const (zrange 1 y) (fun a => rr n l (ptransp n a y) u u)).
        - intros a Ha. apply in_zrange in Ha. specialize (O a Ha). rewrite rsum_lsum in O. set (f := fun k => rr n l (ptransp n a y) k u * rr n l (ptransp n a y) k u) in *. change (lsum (zrange 0 (dd n l)) f = 1) in O.
          assert (f u <= 1) as Q by (rewrite <- O; apply lsum_ge_one; [intros; apply Rle_0_sqr|apply in_zrange; auto]).
          unfold f in Q. nra.
        - unfold rr. rewrite (jm_entry n l (mkirr n l) G y u u) by (auto; lia). rewrite Eu, C by lia. rewrite zlen_zrange. unfold delta. destruct (Z.eq_dec u u); [|contradiction]. rewrite Rmult_1_r. f_equal. lia.
        - apply in_zrange. lia. }
      unfold delta. destruct (Z.eq_dec k u) as [->|Ne]; auto. specialize (O x ltac:(lia)). rewrite rsum_lsum in O.
      assert (lsum (zrange 0 (dd n l)) (fun k => if Z.eq_dec k u then 0 else rr n l (ptransp n x y) k u * rr n l (ptransp n x y) k u) = 0) as Z0.
      { rewrite (lsum_ext _ _ (fun k => rr n l (ptransp n x y) k u * rr n l (ptransp n x y) k u - 1 * delta k u)).
        - rewrite lsum_minus, O, <- rsum_lsum, rsum_delta by auto. ring.
        - intros j _. unfold delta. destruct (Z.eq_dec j u) as [->|]; [rewrite D; ring|ring]. }
      pose proof (lsum_nonneg_0 (zrange 0 (dd n l)) (fun k => if Z.eq_dec k u then 0 else rr n l (ptransp n x y) k u * rr n l (ptransp n x y) k u)) as Q. cbn beta in Q. assert (rr n l (ptransp n x y) k u * rr n l (ptransp n x y) k u = 0) as QQ. { specialize (Q (fun j _ => match Z.eq_dec j u as d return 0 <= (if d then 0 else rr n l (ptransp n x y) j u * rr n l (ptransp n x y) j u) with left _ => Rle_refl 0 | right _ => Rle_0_sqr _ end) Z0 k (proj2 (in_zrange 0 (dd n l) k) Hk)). destruct (Z.eq_dec k u); [contradiction|auto]. } clear Q. rename QQ into Q. apply Rsqr_eq_0 in Q. auto. }
    intros x y k Hx Hy Ne Hk. destruct (Z_lt_le_dec x y); [apply K; auto; lia|]. rewrite ptransp_sym. apply K; auto; lia.
  Qed.

  Lemma transp_past s x y : is_perm n s -> (1 <= x <= n)%Z -> (1 <= y <= n)%Z -> pmul s (ptransp n x y) = pmul (ptransp n (img s x) (img s y)) s.
  Proof.
    intros Hs Hx Hy. pose proof (is_perm_img n s x Hs Hx) as Ix. pose proof (is_perm_img n s y Hs Hy) as Iy. assert (is_perm n (ptransp n x y)) as P1 by (apply is_perm_ptransp; auto). assert (is_perm n (ptransp n (img s x) (img s y))) as P2 by (apply is_perm_ptransp; auto).
    apply (perm_ext n); [apply is_perm_len, is_perm_pmul; auto|apply is_perm_len, is_perm_pmul; auto|]. intros i Hi. rewrite !img_pmul by (rewrite (is_perm_len n); auto). pose proof (is_perm_img n s i Hs Hi) as Ii. rewrite (img_ptransp n x y), img_ptransp by auto.
    assert (img s i = img s x <-> i = x) as Ex by (split; [apply (img_inj n); auto|intros ->; auto]). assert (img s i = img s y <-> i = y) as Ey by (split; [apply (img_inj n); auto|intros ->; auto]). unfold tfun. 
    destruct (Z.eqb_spec i x), (Z.eqb_spec i y), (Z.eqb_spec (img s i) (img s x)), (Z.eqb_spec (img s i) (img s y)); try tauto; subst; auto.
  Qed.

  Definition fixer (l : list Z) (u : Z) : Prop := (0 <= u < dd n l)%Z /\
    forall x y k, (1 <= x <= row l 0)%Z -> (1 <= y <= row l 0)%Z -> x <> y -> (0 <= k < dd n l)%Z -> rr n l (ptransp n x y) k u = delta k u.

  (* a matrix element conjugated by s does not notice a transposition of points that s sends into 1..l_1 *)
  Lemma elem_inv l u s p x y : is_part n l -> fixer l u -> is_perm n s -> is_perm n p -> (1 <= x <= n)%Z -> (1 <= y <= n)%Z -> x <> y -> (img s x <= row l 0)%Z -> (img s y <= row l 0)%Z ->
    rr n l (pmul s (pmul (pmul p (ptransp n x y)) (pinv s))) u u = rr n l (pmul s (pmul p (pinv s))) u u.
  Proof.
    intros P (Bu & F) Hs Hp Hx Hy Ne Sx Sy. pose proof (is_perm_pinv n s Hs) as Hs'. assert (is_perm n (ptransp n x y)) as P1 by (apply is_perm_ptransp; auto).
    pose proof (is_perm_img n s x Hs Hx) as Ix. pose proof (is_perm_img n s y Hs Hy) as Iy. assert (is_perm n (ptransp n (img s x) (img s y))) as P2 by (apply is_perm_ptransp; auto).
    assert (pmul (ptransp n x y) (pinv s) = pmul (pinv s) (ptransp n (img s x) (img s y))) as E.
    { rewrite (transp_past (pinv s)) by auto. rewrite !(img_pinv_l n) by auto. auto. }
    assert (pmul s (pmul (pmul p (ptransp n x y)) (pinv s)) = pmul (pmul s (pmul p (pinv s))) (ptransp n (img s x) (img s y))) as ->.
    { rewrite (pmul_assoc n p) by auto. rewrite E. rewrite <- (pmul_assoc n p) by auto. rewrite (pmul_assoc n s) by (auto; apply is_perm_pmul; auto). auto. }
    rewrite rr_mul; auto; [|apply is_perm_pmul; auto; apply is_perm_pmul; auto].
    rewrite (rsum_ext _ _ (fun k => rr n l (pmul s (pmul p (pinv s))) u k * delta k u)). - apply rsum_delta; auto.
    - intros k Hk. rewrite F; auto; try lia. intros Q. apply Ne. apply (img_inj n s); auto.
  Qed.

  Section Zero.
    Variables (c : list Z) (Pc : is_part n c) (F : list Z -> R) (q : list Z) (Hq : is_perm n q) (m : Z).
    Hypothesis (Hm : (1 <= m <= n)%Z) (Hc : (row c 0 < m)%Z).
    Hypothesis FI : forall p x, is_perm n p -> (1 <= x < m)%Z -> F (pmul p (ptransp n (img q x) (img q m))) = F p.

    Let T' (i j : Z) : R := lsum L (fun p => F p * rr n c (pmul p q) i j).

    Lemma T'_inv i j x : (0 <= i < dd n c)%Z -> (0 <= j < dd n c)%Z -> (1 <= x < m)%Z -> rsum (dd n c) (fun k => T' i k * rr n c (ptransp n x m) k j) = T' i j.
    Proof.
      intros Hi Hj Hx. assert (is_perm n (ptransp n x m)) as P1 by (apply is_perm_ptransp; lia). pose proof (is_perm_img n q x Hq ltac:(lia)) as Ix. pose proof (is_perm_img n q m Hq ltac:(lia)) as Iy. assert (is_perm n (ptransp n (img q x) (img q m))) as P2 by (apply is_perm_ptransp; auto).
      rewrite rsum_lsum. unfold T'. rewrite (lsum_ext _ _ (fun k => lsum L (fun p => F p * rr n c (pmul p q) i k * rr n c (ptransp n x m) k j))) by (intros k _; rewrite <- lsum_scal_r; apply lsum_ext; intros p _; auto). rewrite lsum_swap.
      rewrite <- (sum_right n L HL (ptransp n (img q x) (img q m)) (fun p => F p * rr n c (pmul p q) i j)) by auto. apply lsum_ext. intros p Hp. apply HL in Hp.
      rewrite FI by auto. rewrite (pmul_assoc n p) by auto. rewrite <- transp_past by (auto; lia). rewrite <- (pmul_assoc n p) by auto. rewrite rr_mul; auto; [|apply is_perm_pmul; auto]. rewrite rsum_lsum, <- lsum_scal. apply lsum_ext. intros k _. ring.
    Qed.

    Lemma T'_zero i j : (0 <= i < dd n c)%Z -> (0 <= j < dd n c)%Z -> T' i j = 0.
    Proof.
      intros Hi Hj. destruct (mkirr_ok n c Pc Hn) as (_ & G).
      assert (lsum (zrange 1 m) (fun x => rsum (dd n c) (fun k => T' i k * rr n c (ptransp n x m) k j)) = IZR (m - 1) * T' i j) as E1.
      { rewrite (lsum_ext _ _ (fun _ => T' i j)) by (intros x Hx; apply in_zrange in Hx; apply T'_inv; auto; lia). rewrite lsum_const, zlen_zrange. f_equal. f_equal. lia. }
      rewrite (lsum_ext _ _ (fun x => lsum (zrange 0 (dd n c)) (fun k => T' i k * rr n c (ptransp n x m) k j))) in E1 by (intros; apply rsum_lsum). rewrite lsum_swap in E1.
      rewrite (lsum_ext _ _ (fun k => (T' i k * IZR (cont (tb (mkirr n c) k) m)) * delta k j)) in E1.
      2:{ intros k Hk. apply in_zrange in Hk. rewrite lsum_scal. unfold rr. rewrite (jm_entry n c (mkirr n c) G m k j) by (auto; lia). ring. }
      rewrite <- rsum_lsum, (rsum_delta _ (fun k => T' i k * IZR (cont (tb (mkirr n c) k) m))) in E1 by auto.
      assert (cont (tb (mkirr n c) j) m <> m - 1)%Z as Ne. { intros E. pose proof (content_row n c _ m Pc (tb_standard n c _ j G Hj) Hm E). lia. }
      assert (IZR (cont (tb (mkirr n c) j) m) - IZR (m - 1) <> 0) as Nz by (rewrite <- minus_IZR; apply not_0_IZR; lia).
      apply (Rmult_eq_reg_r (IZR (cont (tb (mkirr n c) j) m) - IZR (m - 1))); auto. lra.
    Qed.

    Lemma sum_zero : lsum L (fun p => F p * chi n c p) = 0.
    Proof.
      pose proof (is_perm_pinv n q Hq) as Hq'.
      assert (forall i, (0 <= i < dd n c)%Z -> lsum L (fun p => F p * rr n c p i i) = 0) as E.
      { intros i Hi. rewrite (lsum_ext _ _ (fun p => lsum (zrange 0 (dd n c)) (fun k => (F p * rr n c (pmul p q) i k) * rr n c (pinv q) k i))).
        - rewrite lsum_swap. apply lsum_0. intros k Hk. apply in_zrange in Hk. rewrite lsum_scal_r. change (T' i k * rr n c (pinv q) k i = 0). rewrite T'_zero by auto. ring.
        - intros p Hp. apply HL in Hp. rewrite (lsum_ext _ _ (fun k => F p * (rr n c (pmul p q) i k * rr n c (pinv q) k i))) by (intros; ring). rewrite lsum_scal. f_equal. rewrite <- rsum_lsum, <- rr_mul; auto; [|apply is_perm_pmul; auto]. rewrite (pmul_assoc n), (pmul_pinv_r n), (pmul_pid_r n) by auto. auto. }
      unfold chi, trace. rewrite (lsum_ext _ _ (fun p => lsum (zrange 0 (dd n c)) (fun i => F p * rr n c p i i))) by (intros p _; rewrite rsum_lsum, <- lsum_scal; auto). rewrite lsum_swap. apply lsum_0. intros i Hi. apply in_zrange in Hi. auto.
    Qed.
  End Zero.

  Lemma row0_bound l : is_part n l -> (1 <= row l 0 <= n)%Z.
  Proof.
    intros P. pose proof (is_part_ppos _ _ P) as Pp. pose proof (is_part_sum _ _ P) as Sm. destruct l as [|z l]; [cbn in Sm; lia|]. pose proof (Pp z (or_introl eq_refl)). apply ppos_inv in Pp as (_ & Pp). pose proof (zsum_ppos l Pp). change (zsum (z :: l)) with (z + zsum l)%Z in Sm. change (row (z :: l) 0) with z. lia.
  Qed.

  Lemma kron_pruned a b c : is_part n a -> is_part n b -> is_part n c -> (row c 0 < row a 0 + row b 0 - n)%Z -> kron n a b c = 0.
  Proof.
    intros Pa Pb Pc H. pose proof (row0_bound a Pa). pose proof (row0_bound b Pb). pose proof (row0_bound c Pc).
    destruct (fixed_column a Pa) as (u & Fu). destruct (fixed_column b Pb) as (w & Fw). change (fixer a u) in Fu. change (fixer b w) in Fw. pose proof (proj1 Fu) as Bu. pose proof (proj1 Fw) as Bw.
    pose proof (fact_pos n) as FP. pose proof (dimR_pos n a Pa Hn) as Da. pose proof (dimR_pos n b Pb Hn) as Db.
    assert (forall l v p, is_part n l -> (0 <= v < dd n l)%Z -> is_perm n p -> chi n l p = dimR n l / IZR (zfact n) * lsum L (fun g => rr n l (pmul g (pmul p (pinv g))) v v)) as CH.
    { intros l v p Pl Hv Hp. unfold L. rewrite (rr_average n Hn) by auto. destruct (Z.eq_dec v v); [|contradiction]. pose proof (dimR_pos n l Pl Hn). field. lra. }
    unfold kron. fold L. rewrite (lsum_ext _ _ (fun p => lsum L (fun s => lsum L (fun t => rr n a (pmul s (pmul p (pinv s))) u u * rr n b (pmul t (pmul p (pinv t))) w w * chi n c p)) * (dimR n a / IZR (zfact n) * (dimR n b / IZR (zfact n))))).
    2:{ intros p Hp. apply HL in Hp. rewrite (CH a u p), (CH b w p) by auto. set (X := lsum L (fun s => rr n a (pmul s (pmul p (pinv s))) u u)). set (Y := lsum L (fun t => rr n b (pmul t (pmul p (pinv t))) w w)).
        replace (lsum L (fun s => lsum L (fun t => rr n a (pmul s (pmul p (pinv s))) u u * rr n b (pmul t (pmul p (pinv t))) w w * chi n c p))) with (X * Y * chi n c p); [ring|]. unfold X. rewrite <- !lsum_scal_r. apply lsum_ext. intros s _. unfold Y. rewrite <- lsum_scal, <- lsum_scal_r. auto. }
    rewrite lsum_scal_r, lsum_swap. rewrite lsum_0; [field; lra|]. intros s Hs. apply HL in Hs. rewrite lsum_swap. apply lsum_0. intros t Ht. apply HL in Ht.
    destruct (many_points n s t (row a 0) (row b 0) Hs Ht ltac:(lia) ltac:(lia)) as (q & Hq & MP). set (m := (row a 0 + row b 0 - n)%Z) in *.
    apply (sum_zero c Pc (fun p => rr n a (pmul s (pmul p (pinv s))) u u * rr n b (pmul t (pmul p (pinv t))) w w) q Hq m); [unfold m; lia|auto|].
    intros p x Hp Hx. pose proof (MP x ltac:(lia)) as (A1 & A2). pose proof (MP m ltac:(lia)) as (B1 & B2). assert (m <= n)%Z by (unfold m; lia). pose proof (is_perm_img n q x Hq ltac:(lia)). pose proof (is_perm_img n q m Hq ltac:(lia)).
    assert (img q x <> img q m) as Ne by (intros E; apply (img_inj n q) in E; auto; lia). rewrite (elem_inv a u s), (elem_inv b w t) by auto. auto.
  Qed.
End Prune.
