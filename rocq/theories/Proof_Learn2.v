(* Learning Clebsch-Gordan factors: the restricted product against an orthonormal basis adapted to the irreps. *)
From Coq Require Import ZArith List Bool Lia Reals Lra Sorting.Sorted Permutation.
From Verif Require Import Model_Base Model_Perm Model_Sn Model_Part Model_Comb Model_Tab Model_Irrep Model_Type Model_FFT Model_Vec Model_Char Model_CG Model_CGvec Model_Prod.
From Verif Require Import Spec_Perm Spec_Part Spec_Tab Spec_Rep Spec_Four Spec_Type Spec_FFT Spec_Vec Spec_CG Spec_CGvec Spec_Prod.
From Verif Require Import Proof_Base Proof_Perm Proof_Sn Proof_Part Proof_PartProps Proof_Tab Proof_TabProps Proof_Cycles Proof_Cox Proof_Yor Proof_Sum Proof_Irrep Proof_Rep Proof_Mat Proof_IrrepProps Proof_JM Proof_Conn Proof_Schur Proof_Restr Proof_UpDown Proof_Complete Proof_Char Proof_CharBank Proof_Type Proof_Rept Proof_FFTmath Proof_FFTlay Proof_FFTlay2 Proof_FFTblk Proof_FFTstep Proof_Vec Proof_Vec2 Proof_Vec3 Proof_Vec4 Proof_Vec5 Proof_Vec6 Proof_Vec7 Proof_Vec8 Proof_Kron Proof_CG Proof_CGdown Proof_CGvec1 Proof_CGvec2 Proof_CGvec3 Proof_CGvec4 Proof_CGvec5 Proof_CGvec6 Proof_CGvec7 Proof_Prod Proof_Hook Proof_Isot Proof_Learn1.
Import ListNotations.
Open Scope Z_scope.

(* the row of lam that was shortened *)
Definition rof (lam mu : list Z) : Z := hd 0 (filter (fun r => if pdec (prem lam r) mu then true else false) (corners lam)).

Lemma rof_ok lam mu : In mu (belows lam) -> In (rof lam mu) (corners lam) /\ prem lam (rof lam mu) = mu.
Proof.
  intros H. apply in_map_iff in H as (r & E & Hr). unfold rof. assert (In r (filter (fun r => if pdec (prem lam r) mu then true else false) (corners lam))) as I by (apply filter_In; split; [auto|]; destruct (pdec (prem lam r) mu); congruence).
  destruct (filter _ (corners lam)) as [|r0 X] eqn:EF; [destruct I|]. cbn [hd]. assert (In r0 (filter (fun r => if pdec (prem lam r) mu then true else false) (corners lam))) as J by (rewrite EF; left; auto). apply filter_In in J as (J1 & J2). destruct (pdec (prem lam r0) mu); [auto|discriminate].
Qed.

Lemma prem_inj n lam r r' : 1 <= n -> is_part n lam -> In r (corners lam) -> In r' (corners lam) -> prem lam r = prem lam r' -> r = r'.
Proof.
  intros Hn P Hr Hr' E. destruct (Z.eq_dec r r') as [|Ne]; [auto|]. exfalso. destruct (belows_spec n lam P Hn) as (N & _). unfold belows in N. clear - Hr Hr' E Ne N. induction (corners lam) as [|x X IH]; [destruct Hr|]. cbn [map] in N. inversion N as [|? ? N1 N2]; subst.
  destruct Hr as [->|Hr], Hr' as [->|Hr']; [congruence| | |auto]; apply N1; [rewrite E|rewrite <- E]; apply in_map; auto.
Qed.

Lemma rof_prem n lam r : 1 <= n -> is_part n lam -> In r (corners lam) -> rof lam (prem lam r) = r.
Proof. intros Hn P Hr. destruct (rof_ok lam (prem lam r) (in_map _ _ _ Hr)) as (A & B). apply (prem_inj n lam); auto. Qed.

Lemma boff_inj n lam r r' a a' : 2 <= n -> is_part n lam -> In r (corners lam) -> In r' (corners lam) -> 0 <= a < io_d (mkirr (n - 1) (prem lam r)) -> 0 <= a' < io_d (mkirr (n - 1) (prem lam r')) ->
  boff n lam r + a = boff n lam r' + a' -> r = r' /\ a = a'.
Proof.
  intros Hn P Hr Hr' Ha Ha' E. destruct (cix n lam r Hr) as (A & B). destruct (cix n lam r' Hr') as (A' & B'). unfold boff in E.
  destruct (offset_inj (ds n lam) (Z.to_nat (idx r (corners lam))) (Z.to_nat (idx r' (corners lam))) a a') as (E1 & E2); rewrite ?len_ds; auto; [apply ds_nonneg|rewrite nth_ds by auto; rewrite sub_row; auto|rewrite nth_ds by auto; rewrite sub_row; auto|].
  split; [|auto]. rewrite <- B, <- B', E1. auto.
Qed.

Section Adapt.
  Variables (F : ftable) (k : nat) (l1 l2 : list Z).
  Let n := Z.of_nat k + 2.
  Hypotheses (P1 : is_part n l1) (P2 : is_part n l2).
  Let Hn : 2 <= n. Proof. unfold n. lia. Qed.
  Let keys := map fst (cgt l1 l2).
  Let NK : NoDup keys. Proof. destruct (cgt_ok n l1 l2 ltac:(lia) P1 P2) as ((T & _) & _). apply (type_nodup n _ T). Qed.

  Lemma lk_nonneg mu lam : In lam keys -> 0 <= lk n l1 l2 mu lam.
  Proof. intros H. apply (cgt_keys n) in H as (A & B); auto; [|lia]. unfold lk. destruct (isin mu (belows lam)); lia. Qed.

  Lemma coff_split lam mu : In lam keys -> exists pre post, keys = pre ++ lam :: post /\ coff n l1 l2 lam mu = zsum_over pre (lk n l1 l2 mu).
  Proof.
    intros H. apply in_split in H as (pre & post & E). exists pre, post. split; [auto|]. unfold coff. fold keys. rewrite E, before_split; [auto|]. pose proof NK as N. rewrite E in N. apply NoDup_remove_2 in N. rewrite in_app_iff in N. tauto.
  Qed.

  Lemma lam_key lam a : is_part n lam -> 0 <= a < kz n l1 l2 lam -> In lam keys.
  Proof. intros P H. apply (cgt_keys n); auto; [lia|]. split; [auto|lia]. Qed.

  Lemma coff_at {mu} (g : list Z -> Z -> R) lam a : is_part n lam -> In mu (belows lam) -> 0 <= a < kz n l1 l2 lam -> colsum keys (lk n l1 l2 mu) g (coff n l1 l2 lam mu + a) = g lam a.
  Proof.
    intros P Hm Ha. destruct (coff_split lam mu (lam_key lam a P Ha)) as (pre & post & E & ->). rewrite E. apply colsum_at; [rewrite <- E; apply lk_nonneg|]. unfold lk. apply isin_true in Hm. rewrite Hm. auto.
  Qed.

  Lemma coff_inj mu lam a lam' a' : is_part n lam -> is_part n lam' -> In mu (belows lam) -> In mu (belows lam') -> 0 <= a < kz n l1 l2 lam -> 0 <= a' < kz n l1 l2 lam' -> coff n l1 l2 lam mu + a = coff n l1 l2 lam' mu + a' -> lam = lam' /\ a = a'.
  Proof.
    intros P P' Hm Hm' Ha Ha' E. set (g := fun l b => if pdec l lam then (IZR b + 1)%R else 0%R). pose proof (coff_at g lam a P Hm Ha) as E1. rewrite E, (coff_at g lam' a' P' Hm' Ha') in E1. unfold g in E1. destruct (pdec lam lam); [|congruence].
    pose proof (IZR_le _ _ (proj1 Ha)). destruct (pdec lam' lam) as [->|]; [|lra]. split; [auto|]. apply eq_IZR. lra.
  Qed.

  Lemma coff_range mu lam a : is_part (n - 1) mu -> is_part n lam -> In mu (belows lam) -> 0 <= a < kz n l1 l2 lam -> 0 <= coff n l1 l2 lam mu /\ coff n l1 l2 lam mu + a < WW n l1 l2 mu /\ coff n l1 l2 lam mu + kz n l1 l2 lam <= WW n l1 l2 mu.
  Proof.
    intros Pm P Hm Ha. destruct (coff_split lam mu (lam_key lam a P Ha)) as (pre & post & E & ->). rewrite <- lk_total by auto. fold keys. rewrite E, zsum_over_app, zsum_over_cons.
    assert (0 <= zsum_over pre (lk n l1 l2 mu)) by (apply zsum_nonneg; intros x Hx; apply lk_nonneg; rewrite E; apply in_app_iff; auto). assert (0 <= zsum_over post (lk n l1 l2 mu)) by (apply zsum_nonneg; intros x Hx; apply lk_nonneg; rewrite E; apply in_app_iff; right; right; auto).
    assert (lk n l1 l2 mu lam = kz n l1 l2 lam) as -> by (unfold lk; apply isin_true in Hm; rewrite Hm; auto). lia.
  Qed.

  Lemma coff_find mu j : is_part (n - 1) mu -> 0 <= j < WW n l1 l2 mu -> exists lam a, is_part n lam /\ In mu (belows lam) /\ 0 <= a < kz n l1 l2 lam /\ j = coff n l1 l2 lam mu + a.
  Proof.
    intros Pm Hj. rewrite <- lk_total in Hj by auto. fold keys in Hj. destruct (block_find keys (lk n l1 l2 mu) j) as (pre & lam & post & a & E & Ha & ->); [intros; apply lk_nonneg; auto|auto|]. assert (In lam keys) as Hl by (rewrite E; apply in_app_iff; right; left; auto).
    pose proof Hl as Hl'. apply (cgt_keys n) in Hl' as (Pl & Hk); auto; [|lia]. unfold lk in Ha. destruct (isin mu (belows lam)) eqn:Ei; [|lia]. apply isin_true in Ei. exists lam, a. split; [auto|]. split; [auto|]. split; [auto|]. f_equal. unfold coff. fold keys. rewrite E, before_split; [auto|]. pose proof NK as N. rewrite E in N. apply NoDup_remove_2 in N. rewrite in_app_iff in N. tauto.
  Qed.

  Notation D := (DD k l1 l2).
  Notation K := (KK k l1 l2).
  Notation W := (Wv F k l1 l2).
  Notation WM mu := (WW n l1 l2 mu).
  Notation dm mu := (io_d (mkirr (n - 1) mu)).

  Variable e : list Z -> Z -> Z -> Z -> R.
  Hypothesis He : isotypic n D K (kz n l1 l2) e.

  Definition Ev (mu : list Z) (r j b : Z) : R := colsum keys (lk n l1 l2 mu) (fun lam a => e lam (boff n lam (rof lam mu) + r) a b) j.
  Definition evl (mu : list Z) (j : Z) : R := colsum keys (lk n l1 l2 mu) (fun lam _ => IZR (ct lam (rof lam mu))) j.

  Lemma Ev_at mu lam r a b : is_part n lam -> In mu (belows lam) -> 0 <= a < kz n l1 l2 lam -> Ev mu r (coff n l1 l2 lam mu + a) b = e lam (boff n lam (rof lam mu) + r) a b.
  Proof. intros. unfold Ev. rewrite coff_at by auto. auto. Qed.
  Lemma evl_at mu lam a : is_part n lam -> In mu (belows lam) -> 0 <= a < kz n l1 l2 lam -> evl mu (coff n l1 l2 lam mu + a) = IZR (ct lam (rof lam mu)).
  Proof. intros. unfold evl. rewrite coff_at by auto. auto. Qed.

  Lemma tpos mu lam r : is_part n lam -> In mu (belows lam) -> 0 <= r < dm mu -> 0 <= boff n lam (rof lam mu) + r < io_d (mkirr n lam).
  Proof. intros P Hm Hr. destruct (rof_ok lam mu Hm) as (A & B). apply boff_bound; auto. rewrite B. auto. Qed.

  Lemma Ev_orth mu r j mu' r' j' : is_part (n - 1) mu -> is_part (n - 1) mu' -> 0 <= r < dm mu -> 0 <= r' < dm mu' -> 0 <= j < WM mu -> 0 <= j' < WM mu' ->
    rsum D (fun b => (Ev mu r j b * Ev mu' r' j' b)%R) = if pdec mu mu' then (delta r r' * delta j j')%R else 0%R.
  Proof.
    intros Pm Pm' Hr Hr' Hj Hj'. destruct (coff_find mu j Pm Hj) as (lam & a & P & Hm & Ha & ->). destruct (coff_find mu' j' Pm' Hj') as (lam' & a' & P' & Hm' & Ha' & ->).
    rewrite (rsum_ext _ _ (fun b => (e lam (boff n lam (rof lam mu) + r)%Z a b * e lam' (boff n lam' (rof lam' mu') + r')%Z a' b)%R)) by (intros; rewrite !Ev_at by auto; auto).
    destruct He as (_ & O & _). rewrite O by (auto; apply tpos; auto). destruct (rof_ok lam mu Hm) as (A & B). destruct (rof_ok lam' mu' Hm') as (A' & B').
    destruct (list_eq_dec Z.eq_dec lam lam') as [<-|Nl].
    - destruct (pdec mu mu') as [<-|Nm].
      + f_equal; unfold delta; [destruct (Z.eq_dec r r'), (Z.eq_dec (boff n lam (rof lam mu) + r) (boff n lam (rof lam mu) + r')); auto; lia|]. destruct (Z.eq_dec a a'), (Z.eq_dec (coff n l1 l2 lam mu + a) (coff n l1 l2 lam mu + a')); auto; lia.
      + rewrite delta_ne; [ring|]. intros E. apply (boff_inj n) in E as (E & _); auto; [congruence|rewrite B; auto|rewrite B'; auto].
    - destruct (pdec mu mu') as [<-|Nm]; [|auto]. rewrite (delta_ne (coff n l1 l2 lam mu + a)); [ring|]. intros E. apply coff_inj in E as (E & _); auto.
  Qed.

  Lemma Ev_complete b b' : 0 <= b < D -> 0 <= b' < D -> lsum (pl (n - 1)) (fun mu => rsum (dm mu) (fun r => rsum (WM mu) (fun j => (Ev mu r j b * Ev mu r j b')%R))) = delta b b'.
  Proof.
    intros Hb Hb'. destruct He as (_ & _ & C). rewrite <- C by auto. symmetry.
    transitivity (lsum (pl n) (fun lam => lsum (pl (n - 1)) (fun mu => if isin mu (belows lam) then rsum (dm mu) (fun s => rsum (kz n l1 l2 lam) (fun a => (Ev mu s (coff n l1 l2 lam mu + a)%Z b * Ev mu s (coff n l1 l2 lam mu + a)%Z b')%R)) else 0%R))).
    - apply lsum_ext. intros lam Hl. apply in_pl in Hl; [|lia]. rewrite <- (lsum_below n lam (fun mu => rsum (dm mu) (fun s => rsum (kz n l1 l2 lam) (fun a => (Ev mu s (coff n l1 l2 lam mu + a)%Z b * Ev mu s (coff n l1 l2 lam mu + a)%Z b')%R)))) by auto.
      rewrite rsum_boff by auto. apply lsum_ext. intros r Hr. apply rsum_ext. intros s Hs. apply rsum_ext. intros a Ha. assert (In (prem lam r) (belows lam)) as Hm by (apply in_map; auto). rewrite !Ev_at by auto. rewrite (rof_prem n) by (auto; lia). auto.
    - rewrite lsum_swap. apply lsum_ext. intros mu Hm. apply in_pl in Hm; [|lia].
      transitivity (rsum (dm mu) (fun s => lsum (pl n) (fun lam => if isin mu (belows lam) then rsum (kz n l1 l2 lam) (fun a => (Ev mu s (coff n l1 l2 lam mu + a)%Z b * Ev mu s (coff n l1 l2 lam mu + a)%Z b')%R) else 0%R))).
      + rewrite <- lsum_rsum. apply lsum_ext. intros lam _. destruct (isin mu (belows lam)); [auto|]. symmetry. apply rsum_zero. auto.
      + apply rsum_ext. intros s _. apply (coff_all n l1 l2 mu (fun j => (Ev mu s j b * Ev mu s j b')%R)); auto.
  Qed.

  Lemma Ev_equi q mu s j b : is_perm (n - 1) q -> is_part (n - 1) mu -> 0 <= s < dm mu -> 0 <= j < WM mu -> 0 <= b < D ->
    rsum D (fun b' => (K (q ++ [n]) b b' * Ev mu s j b')%R) = rsum (dm mu) (fun s' => (rr (n - 1) mu q s' s * Ev mu s' j b)%R).
  Proof.
    intros Hq Pm Hs Hj Hb. destruct (coff_find mu j Pm Hj) as (lam & a & P & Hm & Ha & ->). assert (is_perm n (q ++ [n])) as Hq' by (pose proof (is_perm_snoc (n - 1) q Hq) as H; replace (n - 1 + 1) with n in H by lia; auto).
    rewrite (rsum_ext _ _ (fun b' => (K (q ++ [n]) b b' * e lam (boff n lam (rof lam mu) + s)%Z a b')%R)) by (intros; rewrite Ev_at by auto; auto). destruct He as (E & _ & _). rewrite E by (auto; apply tpos; auto).
    destruct (rof_ok lam mu Hm) as (A & B). pose proof (is_perm_pinv _ _ Hq) as Hi.
    rewrite (rsum_ext _ _ (fun t => (rr n lam (pinv q ++ [n]) (boff n lam (rof lam mu) + s) t * e lam t a b)%R)).
    - rewrite (sub_row_sum n lam (pinv q) (rof lam mu) s (fun t => e lam t a b)); auto; [|unfold hrow; rewrite B; auto]. unfold hrow. rewrite B. apply rsum_ext. intros s' Hs'. rewrite (rr_inv (n - 1)) by (auto; lia). rewrite Ev_at by auto. auto.
    - intros t Ht. pose proof (pinv_snoc (n - 1) q Hq) as PS. replace (n - 1 + 1) with n in PS by lia. rewrite <- PS, (rr_inv n) by (auto; try lia; apply tpos; auto). auto.
  Qed.

  (* an equivariant family lies along the basis *)
  Section Fam.
  Variables (mu : list Z) (V : Z -> Z -> R).
  Hypotheses (Pm : is_part (n - 1) mu) (HV : fam k l1 l2 mu V).
  Let Gv (j : Z) : R := rsum D (fun b => (V 0 b * Ev mu 0 j b)%R).

  Lemma VE r mu' s j : is_part (n - 1) mu' -> 0 <= r < dm mu -> 0 <= s < dm mu' -> 0 <= j < WM mu' ->
    rsum D (fun b => (V r b * Ev mu' s j b)%R) = if pdec mu mu' then (delta r s * Gv j)%R else 0%R.
  Proof.
    intros Pm' Hr Hs Hj. rewrite (schur (n - 1) mu mu' (fun r s => rsum D (fun b => (V r b * Ev mu' s j b)%R))); auto; [|lia|].
    - unfold Gv. destruct (list_eq_dec Z.eq_dec mu mu') as [E|E]; destruct (pdec mu mu') as [E'|E']; try congruence. subst mu'. auto.
    - clear r s Hr Hs. intros q r s Hq Hr Hs.
      transitivity (rsum D (fun b => (V r b * rsum D (fun b' => K (q ++ [n]) b b' * Ev mu' s j b'))%R)).
      + rewrite (rsum_ext (dm mu') _ (fun s' => rsum D (fun b => (V r b * (rr (n - 1) mu' q s' s * Ev mu' s' j b))%R))) by (intros; rewrite <- rsum_scal; apply rsum_ext; intros; ring).
        rewrite rsum_swap. apply rsum_ext. intros b Hb. rewrite rsum_scal, Ev_equi by auto. auto.
      + rewrite (rsum_ext D _ (fun b => rsum D (fun b' => (V r b * K (q ++ [n]) b b' * Ev mu' s j b')%R))) by (intros; rewrite <- rsum_scal; apply rsum_ext; intros; ring).
        rewrite rsum_swap. rewrite (rsum_ext D _ (fun b' => rsum (dm mu) (fun r' => (rr (n - 1) mu q r r' * (V r' b' * Ev mu' s j b'))%R))).
        * rewrite rsum_swap. apply rsum_ext. intros r' Hr'. rewrite rsum_scal. auto.
        * intros b' Hb'. rewrite rsum_scal_r. unfold n. rewrite (HV q r b') by auto. fold n. rewrite <- rsum_scal_r. apply rsum_ext. intros; ring.
  Qed.

  Lemma V_expand r b : 0 <= r < dm mu -> 0 <= b < D -> V r b = rsum (WM mu) (fun j => (Gv j * Ev mu r j b)%R).
  Proof.
    intros Hr Hb. transitivity (rsum D (fun b' => (V r b' * delta b' b)%R)); [symmetry; apply (rsum_delta D (V r)); auto|].
    rewrite (rsum_ext D _ (fun b' => lsum (pl (n - 1)) (fun mu' => rsum (dm mu') (fun s => rsum (WM mu') (fun j => (V r b' * Ev mu' s j b' * Ev mu' s j b)%R))))).
    2:{ intros b' Hb'. rewrite <- Ev_complete by auto. rewrite <- lsum_scal. apply lsum_ext. intros mu' _. rewrite <- rsum_scal. apply rsum_ext. intros s _. rewrite <- rsum_scal. apply rsum_ext. intros; ring. }
    rewrite <- (lsum_rsum (pl (n - 1)) D (fun mu' b' => rsum (dm mu') (fun s => rsum (WM mu') (fun j => (V r b' * Ev mu' s j b' * Ev mu' s j b)%R)))).
    rewrite (lsum_ext (pl (n - 1)) _ (fun mu' => if pdec mu mu' then rsum (WM mu) (fun j => (Gv j * Ev mu r j b)%R) else 0%R)).
    - rewrite (lsum_single _ mu); [destruct (pdec mu mu); congruence|apply NoDup_plist|apply in_pl; auto; lia|]. intros y _ Ny. destruct (pdec mu y); congruence.
    - intros mu' Hm'. apply in_pl in Hm'; [|lia]. rewrite rsum_swap.
      rewrite (rsum_ext (dm mu') _ (fun s => rsum (WM mu') (fun j => ((if pdec mu mu' then delta r s * Gv j else 0) * Ev mu' s j b)%R))).
      + destruct (pdec mu mu') as [<-|Ne]; [|apply rsum_zero; intros; apply rsum_zero; intros; ring]. rewrite (rsum_pick _ _ r) by (auto; intros s Hs Ns; apply rsum_zero; intros; rewrite delta_ne by auto; ring). apply rsum_ext. intros j _. rewrite delta_refl. ring.
      + intros s Hs. rewrite rsum_swap. apply rsum_ext. intros j Hj. rewrite rsum_scal_r, VE by auto. auto.
  Qed.

  End Fam.

  Hypotheses (HR : rowz F k) (HO : orthN (n - 1) F).

  Lemma dm_pos mu : is_part (n - 1) mu -> 0 < dm mu. Proof. intros. apply dpos; auto. lia. Qed.

  Definition Gm (mu : list Z) (c j : Z) : R := rsum D (fun b => (W mu 0 c b * Ev mu 0 j b)%R).

  Lemma W_expand mu c b : is_part (n - 1) mu -> 0 <= c < WM mu -> 0 <= b < D -> W mu 0 c b = rsum (WM mu) (fun j => (Gm mu c j * Ev mu 0 j b)%R).
  Proof.
    intros Pm Hc Hb. pose proof (dm_pos mu Pm) as Dp. destruct (W_fam F k l1 l2 P1 P2 mu c HR Pm Hc) as (V & V1 & V2). rewrite V2 by auto. rewrite (V_expand mu V Pm V1) by (auto; lia). apply rsum_ext. intros j _. f_equal. unfold Gm. apply rsum_ext. intros b' Hb'. rewrite V2 by auto. auto.
  Qed.

  (* all the indices *)
  Definition alli : list (list Z * Z * Z) := flat_map (fun mu => flat_map (fun r => map (fun c => (mu, r, c)) (zrange 0 (WM mu))) (zrange 0 (dm mu))) (pl (n - 1)).
  Lemma lsum_alli (f : list Z -> Z -> Z -> R) : lsum alli (fun x => f (fst (fst x)) (snd (fst x)) (snd x)) = lsum (pl (n - 1)) (fun mu => rsum (dm mu) (fun r => rsum (WM mu) (fun c => f mu r c))).
  Proof. unfold alli. rewrite lsum_flat_map. apply lsum_ext. intros mu _. rewrite lsum_flat_map, rsum_lsum. apply lsum_ext. intros r _. rewrite lsum_map, rsum_lsum. reflexivity. Qed.
  Lemma in_alli mu r c : In (mu, r, c) alli <-> is_part (n - 1) mu /\ 0 <= r < dm mu /\ 0 <= c < WM mu.
  Proof.
    unfold alli. rewrite in_flat_map. split.
    - intros (mu' & Hm & H). apply in_flat_map in H as (r' & Hr & H). apply in_map_iff in H as (c' & E & Hc). injection E as -> -> ->. apply in_pl in Hm; [|lia]. apply in_zrange in Hr, Hc. auto.
    - intros (Pm & Hr & Hc). exists mu. split; [apply in_pl; auto; lia|]. apply in_flat_map. exists r. split; [apply in_zrange; auto|]. apply in_map, in_zrange. auto.
  Qed.

  Lemma alli_len : zlen alli = D.
  Proof.
    apply eq_IZR. transitivity (lsum alli (fun x => rsum D (fun b => (Ev (fst (fst x)) (snd (fst x)) (snd x) b * Ev (fst (fst x)) (snd (fst x)) (snd x) b)%R))).
    - rewrite (lsum_ext _ _ (fun _ => 1%R)); [rewrite lsum_const; ring|]. intros ((mu & r) & c) H. cbn [fst snd]. apply in_alli in H as (Pm & Hr & Hc). rewrite Ev_orth by auto. destruct (pdec mu mu); [|congruence]. rewrite !delta_refl. ring.
    - rewrite lsum_rsum. rewrite (rsum_ext _ _ (fun _ => 1%R)).
      + rewrite rsum_lsum, lsum_const, zlen_zrange, Rmult_1_r. f_equal. pose proof (d1_pos k l1 P1). pose proof (d2_pos k l2 P2). unfold DD. nia.
      + intros b Hb. rewrite (lsum_alli (fun mu r c => (Ev mu r c b * Ev mu r c b)%R)), Ev_complete by auto. apply delta_refl.
  Qed.

  Lemma W_orth mu c c' : is_part (n - 1) mu -> 0 <= c < WM mu -> 0 <= c' < WM mu -> rsum D (fun b => (W mu 0 c b * W mu 0 c' b)%R) = delta c c'.
  Proof.
    intros Pm Hc Hc'. pose proof (dm_pos mu Pm) as Dp. set (z := (@nil Z, 0, 0)). set (A := fun i b => let x := nth (Z.to_nat i) alli z in W (fst (fst x)) (snd (fst x)) (snd x) b).
    assert (forall b b', 0 <= b < D -> 0 <= b' < D -> rsum D (fun i => (A i b * A i b')%R) = delta b b') as C.
    { intros b b' Hb Hb'. rewrite <- (W_complete F k l1 l2 P1 P2 b b') by auto. fold n. rewrite <- (lsum_alli (fun mu r c => (W mu r c b * W mu r c b')%R)). rewrite <- alli_len. unfold A. rewrite rsum_lsum. unfold zrange. rewrite lsum_map. unfold zlen. replace (Z.to_nat (Z.of_nat (length alli) - 0)) with (length alli) by lia. rewrite <- (lsum_nth alli z). apply lsum_ext. intros i _. replace (Z.to_nat (0 + Z.of_nat i)) with i by lia. reflexivity. }
    pose proof (square_orth D (fun b i => A i b) C) as S. cbv beta in S.
    assert (forall c, 0 <= c < WM mu -> exists i, 0 <= i < D /\ nth (Z.to_nat i) alli z = (mu, 0, c)) as I.
    { intros a Ha. destruct (In_nth alli (mu, 0, a) z) as (i & Hi & Ei); [apply in_alli; split; [auto|split; [lia|auto]]|]. exists (Z.of_nat i). rewrite Nat2Z.id. split; [rewrite <- alli_len; unfold zlen; lia|auto]. }
    destruct (I c Hc) as (i & Hi & Ei). destruct (I c' Hc') as (i' & Hi' & Ei'). specialize (S i i' Hi Hi'). unfold A in S. rewrite Ei, Ei' in S. cbn [fst snd] in S. rewrite S. unfold delta. destruct (Z.eq_dec i i') as [E|N], (Z.eq_dec c c') as [E'|N']; auto; exfalso.
    - subst i'. rewrite Ei in Ei'. congruence.
    - subst c'. apply N. assert (Z.to_nat i = Z.to_nat i') as E; [|lia]. apply (NoDup_nth alli z); [|unfold zlen in *; pose proof alli_len as L; unfold zlen in L; lia|pose proof alli_len as L; unfold zlen in L; lia|congruence].
      unfold alli. apply NoDup_flat_map; [apply NoDup_plist| |].
      + intros x _. apply NoDup_flat_map; [apply NoDup_zrange| |].
        * intros y _. apply FinFun.Injective_map_NoDup; [intros ? ? H; injection H; auto|apply NoDup_zrange].
        * intros y y' w _ _ H H'. apply in_map_iff in H as (? & <- & _), H' as (? & H' & _). injection H'. auto.
      + intros x x' w _ _ H H'. apply in_flat_map in H as (? & _ & H), H' as (? & _ & H'). apply in_map_iff in H as (? & <- & _), H' as (? & H' & _). injection H'. auto.
  Qed.

  Lemma G_rows mu c c' : is_part (n - 1) mu -> 0 <= c < WM mu -> 0 <= c' < WM mu -> rsum (WM mu) (fun j => (Gm mu c j * Gm mu c' j)%R) = delta c c'.
  Proof.
    intros Pm Hc Hc'. pose proof (dm_pos mu Pm) as Dp. rewrite <- (W_orth mu c c') by auto. symmetry.
    rewrite (rsum_ext D _ (fun b => rsum (WM mu) (fun j => (Gm mu c' j * (W mu 0 c b * Ev mu 0 j b))%R))) by (intros b Hb; rewrite (W_expand mu c' b) by auto; rewrite <- rsum_scal; apply rsum_ext; intros; ring).
    rewrite rsum_swap. apply rsum_ext. intros j _. rewrite rsum_scal. change (rsum D (fun b => (W mu 0%Z c b * Ev mu 0%Z j b)%R)) with (Gm mu c j). ring.
  Qed.

  Lemma G_cols mu j j' : is_part (n - 1) mu -> 0 <= j < WM mu -> 0 <= j' < WM mu -> rsum (WM mu) (fun c => (Gm mu c j * Gm mu c j')%R) = delta j j'.
  Proof. intros Pm Hj Hj'. apply (square_orth (WM mu) (Gm mu)); auto. intros. apply G_rows; auto. Qed.

  (* ---- the Jucys-Murphy operator ---- *)

  Definition JMm : Z -> Z -> R := jmsum n (mkirr n l1) (mkirr n l2) n.

  Lemma JM_Ev mu r j b : is_part (n - 1) mu -> 0 <= r < dm mu -> 0 <= j < WM mu -> 0 <= b < D -> rsum D (fun b' => (JMm b b' * Ev mu r j b')%R) = (evl mu j * Ev mu r j b)%R.
  Proof.
    intros Pm Hr Hj Hb. destruct (coff_find mu j Pm Hj) as (lam & a & P & Hm & Ha & ->). rewrite evl_at, Ev_at by auto. destruct (rof_ok lam mu Hm) as (A & B). pose proof (tpos mu lam r P Hm Hr) as T. set (t := boff n lam (rof lam mu) + r) in *.
    rewrite (rsum_ext D _ (fun b' => lsum (zrange 1 n) (fun x => (K (ptransp n x n) b b' * e lam t a b')%R))) by (intros; rewrite Ev_at by auto; unfold JMm, jmsum; rewrite <- lsum_scal_r; auto).
    rewrite <- lsum_rsum. destruct He as (E & _ & _). rewrite (lsum_ext _ _ (fun x => rsum (io_d (mkirr n lam)) (fun t' => (rr n lam (ptransp n x n) t' t * e lam t' a b)%R))) by (intros x Hx; apply in_zrange in Hx; rewrite E by (auto; apply is_perm_ptransp; lia); auto).
    rewrite lsum_rsum. destruct (mkirr_ok n lam P ltac:(lia)) as (_ & Gd). rewrite (rsum_ext _ _ (fun t' => (IZR (ct lam (rof lam mu)) * e lam t' a b * delta t' t)%R)).
    - apply (rsum_delta _ (fun t' => (IZR (ct lam (rof lam mu)) * e lam t' a b)%R)). auto.
    - intros t' Ht'. rewrite lsum_scal_r. unfold rr. rewrite (jm_entry n lam (mkirr n lam) Gd n t' t) by (auto; lia). destruct (Z.eq_dec t' t) as [->|Nt]; [|rewrite (delta_ne t') by auto; ring]. rewrite delta_refl. unfold t. rewrite cont_boff by (auto; rewrite B; auto). ring.
  Qed.

  Definition Mm (mu : list Z) (c c' : Z) : R := rsum D (fun b => (W mu 0 c b * rsum D (fun b' => JMm b b' * W mu 0%Z c' b'))%R).

  Lemma M_eq mu c c' : is_part (n - 1) mu -> 0 <= c < WM mu -> 0 <= c' < WM mu -> Mm mu c c' = rsum (WM mu) (fun j => (Gm mu c j * evl mu j * Gm mu c' j)%R).
  Proof.
    intros Pm Hc Hc'. pose proof (dm_pos mu Pm) as Dp. unfold Mm. rewrite (rsum_ext D _ (fun b => rsum (WM mu) (fun j => (Gm mu c' j * evl mu j * (W mu 0%Z c b * Ev mu 0%Z j b))%R))).
    - rewrite rsum_swap. apply rsum_ext. intros j Hj. rewrite rsum_scal. change (rsum D (fun b => (W mu 0%Z c b * Ev mu 0%Z j b)%R)) with (Gm mu c j). ring.
    - intros b Hb. rewrite (rsum_ext (WM mu) _ (fun j => (W mu 0%Z c b * (Gm mu c' j * (evl mu j * Ev mu 0%Z j b)))%R)) by (intros; ring). rewrite rsum_scal. f_equal.
      rewrite (rsum_ext D _ (fun b' => rsum (WM mu) (fun j => (Gm mu c' j * (JMm b b' * Ev mu 0%Z j b'))%R))) by (intros b' Hb'; rewrite (W_expand mu c' b') by auto; rewrite <- rsum_scal; apply rsum_ext; intros; ring).
      rewrite rsum_swap. apply rsum_ext. intros j Hj. rewrite rsum_scal, JM_Ev by (auto; lia). auto.
  Qed.

  (* ---- an eigenbasis of the matrix of mu ---- *)
  Section Eig.
    Variables (mu : list Z) (U : Z -> Z -> R) (Dv : Z -> R).
    Hypotheses (Pm : is_part (n - 1) mu).
    Hypothesis U_cols : forall i i', 0 <= i < WM mu -> 0 <= i' < WM mu -> rsum (WM mu) (fun c => (U c i * U c i')%R) = delta i i'.
    Hypothesis U_eig : forall c i, 0 <= c < WM mu -> 0 <= i < WM mu -> rsum (WM mu) (fun c' => (Mm mu c c' * U c' i)%R) = (U c i * Dv i)%R.

    Definition Om (j i : Z) : R := rsum (WM mu) (fun c => (Gm mu c j * U c i)%R).

    Lemma O_cols i i' : 0 <= i < WM mu -> 0 <= i' < WM mu -> rsum (WM mu) (fun j => (Om j i * Om j i')%R) = delta i i'.
    Proof.
      intros Hi Hi'. rewrite <- (U_cols i i') by auto. unfold Om.
      rewrite (rsum_ext _ _ (fun j => (rsum (WM mu) (fun c => U c i * Gm mu c j) * rsum (WM mu) (fun c => U c i' * Gm mu c j))%R)) by (intros; f_equal; apply rsum_ext; intros; ring).
      apply (orth_sum (WM mu) (Gm mu) (fun c => U c i) (fun c => U c i')). intros. apply G_rows; auto.
    Qed.
    Lemma O_rows j j' : 0 <= j < WM mu -> 0 <= j' < WM mu -> rsum (WM mu) (fun i => (Om j i * Om j' i)%R) = delta j j'.
    Proof. intros Hj Hj'. apply (square_orth (WM mu) (fun i j => Om j i)); auto. intros. apply O_cols; auto. Qed.

    Lemma O_eig j i : 0 <= j < WM mu -> 0 <= i < WM mu -> (evl mu j * Om j i = Om j i * Dv i)%R.
    Proof.
      intros Hj Hi. unfold Om. transitivity (rsum (WM mu) (fun c => (Gm mu c j * rsum (WM mu) (fun c' => Mm mu c c' * U c' i))%R)).
      - rewrite (rsum_ext _ (fun c => (Gm mu c j * rsum (WM mu) (fun c' => Mm mu c c' * U c' i))%R) (fun c => rsum (WM mu) (fun c' => (Gm mu c j * Mm mu c c' * U c' i)%R))) by (intros; rewrite <- rsum_scal; apply rsum_ext; intros; ring).
        rewrite rsum_swap, <- rsum_scal. apply rsum_ext. intros c' Hc'. rewrite rsum_scal_r.
        rewrite (rsum_ext _ _ (fun c => rsum (WM mu) (fun j' => (evl mu j' * Gm mu c' j' * (Gm mu c j * Gm mu c j'))%R))) by (intros c Hc; rewrite M_eq by auto; rewrite <- rsum_scal; apply rsum_ext; intros; ring).
        rewrite rsum_swap. rewrite (rsum_ext _ _ (fun j' => (delta j j' * (evl mu j' * Gm mu c' j'))%R)) by (intros j' Hj'; rewrite rsum_scal, G_cols by auto; ring). rewrite (rsum_delta_l _ (fun j' => (evl mu j' * Gm mu c' j')%R)) by auto. ring.
      - rewrite <- rsum_scal_r. apply rsum_ext. intros c Hc. rewrite U_eig by auto. ring.
    Qed.

    (* the eigenvalues are contents *)
    Lemma D_content i : 0 <= i < WM mu -> exists lam, is_part n lam /\ In mu (belows lam) /\ 0 < kz n l1 l2 lam /\ Dv i = IZR (ct lam (rof lam mu)).
    Proof.
      intros Hi. destruct (diag_pick (fun j => Om j i) (zrange 0 (WM mu))) as [Z0|(j & Hj & Nz)].
      - exfalso. pose proof (O_cols i i Hi Hi) as O. rewrite delta_refl, rsum_zero in O; [lra|]. intros j Hj. rewrite Z0 by (apply in_zrange; auto). ring.
      - apply in_zrange in Hj. pose proof (O_eig j i Hj Hi) as E. destruct (coff_find mu j Pm Hj) as (lam & a & P & Hm & Ha & ->). exists lam. split; [auto|]. split; [auto|]. split; [lia|]. rewrite evl_at in E by auto. apply (Rmult_eq_reg_l (Om (coff n l1 l2 lam mu + a) i)); [|auto]. rewrite <- E. ring.
    Qed.

    Lemma O_zero lam a i : is_part n lam -> In mu (belows lam) -> 0 <= a < kz n l1 l2 lam -> 0 <= i < WM mu -> Dv i <> IZR (ct lam (rof lam mu)) -> Om (coff n l1 l2 lam mu + a) i = 0%R.
    Proof.
      intros P Hm Ha Hi Nd. destruct (coff_range mu lam a Pm P Hm Ha) as (R1 & R2 & _). pose proof (O_eig (coff n l1 l2 lam mu + a) i ltac:(lia) Hi) as E. rewrite evl_at in E by auto.
      apply (Rmult_eq_reg_l (Dv i - IZR (ct lam (rof lam mu)))%R); [|lra]. rewrite Rmult_0_r. lra.
    Qed.

    (* sums over the block of lam *)
    Lemma O_block lam i (g : Z -> R) : is_part n lam -> In mu (belows lam) -> 0 < kz n l1 l2 lam -> 0 <= i < WM mu -> Dv i = IZR (ct lam (rof lam mu)) ->
      rsum (WM mu) (fun j => (Om j i * g j)%R) = rsum (kz n l1 l2 lam) (fun a => (Om (coff n l1 l2 lam mu + a)%Z i * g (coff n l1 l2 lam mu + a)%Z)%R).
    Proof.
      intros P Hm Hk Hi Ed. rewrite <- (coff_all n l1 l2 mu (fun j => (Om j i * g j)%R)) by auto. rewrite (lsum_single _ lam); [|apply NoDup_plist|apply in_pl; auto; lia|].
      - apply isin_true in Hm. rewrite Hm. auto.
      - intros lam' Hl' Nl. apply in_pl in Hl'; [|lia]. destruct (isin mu (belows lam')) eqn:Ei; [|auto]. apply isin_true in Ei. apply rsum_zero. intros a Ha. rewrite O_zero; auto; [ring|]. rewrite Ed. intros E. apply eq_IZR in E. apply Nl.
        destruct (rof_ok lam mu Hm) as (A & B). destruct (rof_ok lam' mu Ei) as (A' & B'). symmetry. apply (ct_inj n lam lam' (rof lam mu) (rof lam' mu)); auto. congruence.
    Qed.

    Definition selb (lam : list Z) (i : Z) : bool := if Req_EM_T (Dv i) (IZR (ct lam (rof lam mu))) then true else false.
    Definition sel (lam : list Z) : list Z := filter (selb lam) (zrange 0 (WM mu)).

    Lemma in_sel lam i : In i (sel lam) <-> 0 <= i < WM mu /\ Dv i = IZR (ct lam (rof lam mu)).
    Proof. unfold sel. rewrite filter_In, in_zrange. unfold selb. destruct (Req_EM_T (Dv i) (IZR (ct lam (rof lam mu)))); split; intros (A & B); try discriminate; try contradiction; auto. Qed.
    Lemma NoDup_sel lam : NoDup (sel lam). Proof. apply NoDup_filter, NoDup_zrange. Qed.

    (* as many eigenvalues as columns *)
    Lemma sel_len lam : is_part n lam -> In mu (belows lam) -> 0 < kz n l1 l2 lam -> zlen (sel lam) = kz n l1 l2 lam.
    Proof.
      intros P Hm Hk. apply eq_IZR. transitivity (lsum (sel lam) (fun i => rsum (WM mu) (fun j => (Om j i * Om j i)%R))).
      - rewrite (lsum_ext _ _ (fun _ => 1%R)); [rewrite lsum_const; ring|]. intros i Hi. apply in_sel in Hi as (Hi & _). rewrite O_cols by auto. apply delta_refl.
      - rewrite (lsum_ext _ _ (fun i => rsum (kz n l1 l2 lam) (fun a => (Om (coff n l1 l2 lam mu + a)%Z i * Om (coff n l1 l2 lam mu + a)%Z i)%R))) by (intros i Hi; apply in_sel in Hi as (Hi & Ei); apply O_block; auto).
        rewrite lsum_rsum. rewrite (rsum_ext _ _ (fun _ => 1%R)); [rewrite rsum_lsum, lsum_const, zlen_zrange; rewrite Rmult_1_r; f_equal; lia|]. intros a Ha. destruct (coff_range mu lam a Pm P Hm Ha) as (R1 & R2 & _).
        unfold sel. rewrite lsum_filter. rewrite (lsum_ext _ _ (fun i => (Om (coff n l1 l2 lam mu + a)%Z i * Om (coff n l1 l2 lam mu + a)%Z i)%R)).
        + rewrite <- rsum_lsum, O_rows by lia. apply delta_refl.
        + intros i Hi. apply in_zrange in Hi. unfold selb. destruct (Req_EM_T (Dv i) (IZR (ct lam (rof lam mu)))); [auto|]. rewrite O_zero by auto. ring.
    Qed.
  End Eig.
  (* ---- the factors that are learned ---- *)
  Section Align.
    Variables (U : list Z -> Z -> Z -> R) (Dv : list Z -> Z -> R).
    Hypothesis U_cols : forall mu i i', is_part (n - 1) mu -> 0 <= i < WM mu -> 0 <= i' < WM mu -> rsum (WM mu) (fun c => (U mu c i * U mu c i')%R) = delta i i'.
    Hypothesis U_eig : forall mu c i, is_part (n - 1) mu -> 0 <= c < WM mu -> 0 <= i < WM mu -> rsum (WM mu) (fun c' => (Mm mu c c' * U mu c' i)%R) = (U mu c i * Dv mu i)%R.

    (* lam occurs in the product and mu is below lam *)
    Definition occ (lam mu : list Z) : Prop := is_part n lam /\ In mu (belows lam) /\ 0 < kz n l1 l2 lam.
    Lemma occ_part lam mu : occ lam mu -> is_part (n - 1) mu.
    Proof. intros (P & Hm & _). destruct (rof_ok lam mu Hm) as (A & <-). apply corner_part; auto. Qed.

    Definition si (lam mu : list Z) (a : Z) : Z := nth (Z.to_nat a) (sel mu (Dv mu) lam) 0.
    Definition raw (lam mu : list Z) (c a : Z) : R := U mu c (si lam mu a).

    Lemma si_in lam mu a : occ lam mu -> 0 <= a < kz n l1 l2 lam -> 0 <= si lam mu a < WM mu /\ Dv mu (si lam mu a) = IZR (ct lam (rof lam mu)).
    Proof.
      intros O Ha. pose proof (occ_part lam mu O) as Pm. destruct O as (P & Hm & Hk). apply in_sel. unfold si. apply nth_In. pose proof (sel_len mu (U mu) (Dv mu) Pm (fun i i' => U_cols mu i i' Pm) (fun c i => U_eig mu c i Pm) lam P Hm Hk) as L. unfold zlen in L. lia.
    Qed.
    Lemma si_inj lam mu a a' : occ lam mu -> 0 <= a < kz n l1 l2 lam -> 0 <= a' < kz n l1 l2 lam -> si lam mu a = si lam mu a' -> a = a'.
    Proof.
      intros O Ha Ha' E. pose proof (occ_part lam mu O) as Pm. destruct O as (P & Hm & Hk). pose proof (sel_len mu (U mu) (Dv mu) Pm (fun i i' => U_cols mu i i' Pm) (fun c i => U_eig mu c i Pm) lam P Hm Hk) as L. unfold zlen in L.
      assert (Z.to_nat a = Z.to_nat a'); [|lia]. apply (NoDup_nth (sel mu (Dv mu) lam) 0); [apply NoDup_sel|lia|lia|exact E].
    Qed.
    Lemma si_delta lam mu a a' : occ lam mu -> 0 <= a < kz n l1 l2 lam -> 0 <= a' < kz n l1 l2 lam -> delta (si lam mu a) (si lam mu a') = delta a a'.
    Proof. intros O Ha Ha'. unfold delta. destruct (Z.eq_dec (si lam mu a) (si lam mu a')) as [E|E], (Z.eq_dec a a') as [E'|E']; auto; [apply si_inj in E; auto; contradiction|subst; contradiction]. Qed.

    Lemma raw_orth lam mu a a' : occ lam mu -> 0 <= a < kz n l1 l2 lam -> 0 <= a' < kz n l1 l2 lam -> rsum (WM mu) (fun c => (raw lam mu c a * raw lam mu c a')%R) = delta a a'.
    Proof. intros O Ha Ha'. unfold raw. rewrite U_cols by (try apply (occ_part lam); try apply si_in; auto). apply si_delta; auto. Qed.
    Lemma raw_orth' lam lam' mu a a' : occ lam mu -> occ lam' mu -> lam <> lam' -> 0 <= a < kz n l1 l2 lam -> 0 <= a' < kz n l1 l2 lam' -> rsum (WM mu) (fun c => (raw lam mu c a * raw lam' mu c a')%R) = 0%R.
    Proof.
      intros O O' Ne Ha Ha'. unfold raw. rewrite U_cols by (try apply (occ_part lam); try apply si_in; auto). apply delta_ne. intros E. destruct (si_in lam mu a O Ha) as (_ & E1). destruct (si_in lam' mu a' O' Ha') as (_ & E2). rewrite E, E2 in E1. apply eq_IZR in E1. apply Ne.
      destruct O as (P & Hm & _), O' as (P' & Hm' & _). destruct (rof_ok lam mu Hm) as (A & B). destruct (rof_ok lam' mu Hm') as (A' & B'). apply (ct_inj n lam lam' (rof lam mu) (rof lam' mu)); auto. congruence.
    Qed.

    Definition Qm (lam mu : list Z) (x a : Z) : R := Om mu (U mu) (coff n l1 l2 lam mu + x) (si lam mu a).

    Lemma Q_cols lam mu a a' : occ lam mu -> 0 <= a < kz n l1 l2 lam -> 0 <= a' < kz n l1 l2 lam -> rsum (kz n l1 l2 lam) (fun x => (Qm lam mu x a * Qm lam mu x a')%R) = delta a a'.
    Proof.
      intros O Ha Ha'. pose proof (occ_part lam mu O) as Pm. destruct (si_in lam mu a O Ha) as (S1 & S2). destruct (si_in lam mu a' O Ha') as (S1' & S2'). rewrite <- (si_delta lam mu) by auto. rewrite <- (O_cols mu (U mu) Pm (fun i i' => U_cols mu i i' Pm)) by auto.
      destruct O as (P & Hm & Hk). symmetry. apply (O_block mu (U mu) (Dv mu) Pm (fun i i' => U_cols mu i i' Pm) (fun c i => U_eig mu c i Pm) lam (si lam mu a) (fun j => Om mu (U mu) j (si lam mu a'))); auto.
    Qed.
    Lemma Q_rows lam mu x x' : occ lam mu -> 0 <= x < kz n l1 l2 lam -> 0 <= x' < kz n l1 l2 lam -> rsum (kz n l1 l2 lam) (fun a => (Qm lam mu x a * Qm lam mu x' a)%R) = delta x x'.
    Proof. intros O Hx Hx'. apply (square_orth (kz n l1 l2 lam) (fun a x => Qm lam mu x a)); auto. intros. apply Q_cols; auto. Qed.

    (* the picked columns lie in the irrep lam, along the row of mu *)
    Lemma raw_e lam mu a b : occ lam mu -> 0 <= a < kz n l1 l2 lam -> 0 <= b < D -> rsum (WM mu) (fun c => (W mu 0 c b * raw lam mu c a)%R) = rsum (kz n l1 l2 lam) (fun x => (Qm lam mu x a * e lam (boff n lam (rof lam mu)) x b)%R).
    Proof.
      intros O Ha Hb. pose proof (occ_part lam mu O) as Pm. destruct (si_in lam mu a O Ha) as (S1 & S2). pose proof O as (P & Hm & Hk).
      transitivity (rsum (WM mu) (fun j => (Om mu (U mu) j (si lam mu a) * Ev mu 0 j b)%R)).
      - rewrite (rsum_ext _ _ (fun c => rsum (WM mu) (fun j => (Gm mu c j * U mu c (si lam mu a) * Ev mu 0 j b)%R))) by (intros c Hc; rewrite W_expand by auto; unfold raw; rewrite <- rsum_scal_r; apply rsum_ext; intros; ring).
        rewrite rsum_swap. apply rsum_ext. intros j Hj. rewrite rsum_scal_r. reflexivity.
      - rewrite (O_block mu (U mu) (Dv mu) Pm (fun i i' => U_cols mu i i' Pm) (fun c i => U_eig mu c i Pm) lam (si lam mu a) (fun j => Ev mu 0 j b)) by auto. apply rsum_ext. intros x Hx. rewrite Ev_at by auto. rewrite Z.add_0_r. reflexivity.
    Qed.

    Definition Bm (lam mu mu0 p : list Z) (m a : Z) : R := rsum D (fun b => (rsum (WM mu) (fun c => W mu 0%Z c b * raw lam mu c m) * rsum D (fun b' => K p b b' * rsum (WM mu0) (fun c => W mu0 0%Z c b' * raw lam mu0 c a)))%R).

    Lemma tpos0 lam mu : occ lam mu -> 0 <= boff n lam (rof lam mu) < io_d (mkirr n lam).
    Proof. intros O. pose proof (dm_pos mu (occ_part lam mu O)). destruct O as (P & Hm & _). pose proof (tpos mu lam 0 P Hm). lia. Qed.

    Lemma B_val lam mu mu0 p m a : is_perm n p -> occ lam mu -> occ lam mu0 -> 0 <= m < kz n l1 l2 lam -> 0 <= a < kz n l1 l2 lam ->
      Bm lam mu mu0 p m a = (rr n lam p (boff n lam (rof lam mu)) (boff n lam (rof lam mu0)) * rsum (kz n l1 l2 lam) (fun x => Qm lam mu x m * Qm lam mu0 x a))%R.
    Proof.
      intros Hp O O0 Hm Ha. pose proof O as (P & _). pose proof (tpos0 lam mu O) as T1. pose proof (tpos0 lam mu0 O0) as T2. set (t := boff n lam (rof lam mu)) in *. set (t0 := boff n lam (rof lam mu0)) in *. set (kk := kz n l1 l2 lam) in *. unfold Bm. pose proof He as (E & Or & _).
      transitivity (rsum D (fun b => rsum kk (fun x => rsum kk (fun y => rsum (io_d (mkirr n lam)) (fun r => (Qm lam mu x m * Qm lam mu0 y a * rr n lam p r t0 * (e lam t x b * e lam r y b))%R))))).
      - apply rsum_ext. intros b Hb. rewrite raw_e by auto. fold kk t. rewrite <- rsum_scal_r. apply rsum_ext. intros x Hx.
        rewrite (rsum_ext D _ (fun b' => rsum kk (fun y => (Qm lam mu0 y a * (K p b b' * e lam t0 y b'))%R))) by (intros b' Hb'; rewrite raw_e by auto; fold kk t0; rewrite <- rsum_scal; apply rsum_ext; intros; ring).
        rewrite rsum_swap. rewrite (rsum_ext kk _ (fun y => (Qm lam mu0 y a * rsum (io_d (mkirr n lam)) (fun r => rr n lam p r t0 * e lam r y b))%R)) by (intros y Hy; rewrite rsum_scal, E by auto; auto).
        rewrite <- rsum_scal. apply rsum_ext. intros y Hy. rewrite <- !rsum_scal. apply rsum_ext. intros; ring.
      - rewrite rsum_swap, <- rsum_scal. apply rsum_ext. intros x Hx. rewrite rsum_swap.
        rewrite (rsum_ext kk _ (fun y => (rr n lam p t t0 * Qm lam mu x m * Qm lam mu0 y a * delta y x)%R)).
        + rewrite (rsum_delta kk (fun y => (rr n lam p t t0 * Qm lam mu x m * Qm lam mu0 y a)%R)) by auto. ring.
        + intros y Hy. rewrite rsum_swap. rewrite (rsum_ext _ _ (fun r => (Qm lam mu x m * Qm lam mu0 y a * rr n lam p r t0 * delta y x * delta r t)%R)).
          * rewrite (rsum_delta _ (fun r => (Qm lam mu x m * Qm lam mu0 y a * rr n lam p r t0 * delta y x)%R)) by auto. ring.
          * intros r Hr. rewrite rsum_scal, Or by auto. destruct (list_eq_dec Z.eq_dec lam lam); [|congruence]. rewrite (delta_sym t r), (delta_sym x y). ring.
    Qed.

    (* what the columns of lam in the factor of mu are in the end *)
    Definition tau1 : list Z := ptransp n (n - 1) n.
    Definition mu0 (lam : list Z) : list Z := hd [] (belows lam).
    Definition Aval (lam mu : list Z) : R := rr n lam tau1 (boff n lam (rof lam mu)) 0.
    Definition aligned (lam mu : list Z) : bool := if pdec mu (mu0 lam) then false else if Rlt_dec (1 / 10000) (Rabs (Aval lam mu)) then true else false.
    Definition fin (lam mu : list Z) (c a : Z) : R :=
      if aligned lam mu then rsum (kz n l1 l2 lam) (fun m => (raw lam mu c m * (Bm lam mu (mu0 lam) tau1 a m * (1 / Aval lam mu)))%R) else raw lam mu c a.
    Definition Xm (lam mu : list Z) (m a : Z) : R := if aligned lam mu then rsum (kz n l1 l2 lam) (fun x => (Qm lam mu x a * Qm lam (mu0 lam) x m)%R) else delta m a.

    Lemma tau1_perm : is_perm n tau1. Proof. apply is_perm_ptransp; lia. Qed.
    Lemma mu0_occ lam : is_part n lam -> 0 < kz n l1 l2 lam -> occ lam (mu0 lam).
    Proof. intros P Hk. split; [auto|]. split; [|auto]. unfold mu0, belows. pose proof (corners_some n lam ltac:(lia) P) as N. destruct (corners lam); [congruence|left; auto]. Qed.
    Lemma boff_mu0 lam : is_part n lam -> boff n lam (rof lam (mu0 lam)) = 0.
    Proof.
      intros P. pose proof (corners_some n lam ltac:(lia) P) as N. unfold mu0, belows. destruct (corners lam) as [|r C] eqn:EC; [congruence|]. cbn [map hd]. rewrite (rof_prem n) by (try lia; auto; rewrite EC; left; auto). unfold boff. rewrite EC. cbn [idx]. rewrite Z.eqb_refl. reflexivity.
    Qed.

    Lemma fin_X lam mu c a : occ lam mu -> 0 <= a < kz n l1 l2 lam -> fin lam mu c a = rsum (kz n l1 l2 lam) (fun m => (raw lam mu c m * Xm lam mu m a)%R).
    Proof.
      intros O Ha. unfold fin, Xm. destruct (aligned lam mu) eqn:EA; [|symmetry; apply (rsum_delta _ (raw lam mu c)); auto]. apply rsum_ext. intros m Hm. f_equal. pose proof O as (P & _ & Hk). rewrite B_val; auto; [|apply tau1_perm|apply mu0_occ; auto]. rewrite boff_mu0 by auto. change (rr n lam tau1 (boff n lam (rof lam mu)) 0) with (Aval lam mu).
      assert (Aval lam mu <> 0%R) as NZ. { unfold aligned in EA. destruct (pdec mu (mu0 lam)); [discriminate|]. destruct (Rlt_dec (1 / 10000) (Rabs (Aval lam mu))) as [L|]; [|discriminate]. intros E. rewrite E, Rabs_R0 in L. lra. }
      field. auto.
    Qed.

    Lemma X_cols lam mu a a' : occ lam mu -> 0 <= a < kz n l1 l2 lam -> 0 <= a' < kz n l1 l2 lam -> rsum (kz n l1 l2 lam) (fun m => (Xm lam mu m a * Xm lam mu m a')%R) = delta a a'.
    Proof.
      intros O Ha Ha'. pose proof O as (P & _ & Hk). unfold Xm. destruct (aligned lam mu).
      - rewrite <- (Q_cols lam mu a a') by auto. apply (orth_sum (kz n l1 l2 lam) (fun x m => Qm lam (mu0 lam) x m) (fun x => Qm lam mu x a) (fun x => Qm lam mu x a')). intros. apply Q_rows; auto. apply mu0_occ; auto.
      - rewrite (rsum_delta _ (fun m => delta m a)) by auto. apply delta_sym.
    Qed.

    Lemma fin_orth lam mu a a' : occ lam mu -> 0 <= a < kz n l1 l2 lam -> 0 <= a' < kz n l1 l2 lam -> rsum (WM mu) (fun c => (fin lam mu c a * fin lam mu c a')%R) = delta a a'.
    Proof.
      intros O Ha Ha'. rewrite <- (X_cols lam mu a a') by auto. set (kk := kz n l1 l2 lam) in *.
      rewrite (rsum_ext _ _ (fun c => rsum kk (fun m => rsum kk (fun m' => (Xm lam mu m a * Xm lam mu m' a' * (raw lam mu c m * raw lam mu c m'))%R)))).
      - rewrite rsum_swap. apply rsum_ext. intros m Hm. rewrite rsum_swap. rewrite (rsum_ext kk _ (fun m' => (Xm lam mu m a * Xm lam mu m' a' * delta m' m)%R)) by (intros m' Hm'; rewrite rsum_scal, raw_orth by auto; rewrite (delta_sym m m'); auto). apply (rsum_delta kk (fun m' => (Xm lam mu m a * Xm lam mu m' a')%R)). auto.
      - intros c _. rewrite !fin_X by auto. fold kk. rewrite <- rsum_scal_r. apply rsum_ext. intros m _. rewrite <- rsum_scal. apply rsum_ext. intros; ring.
    Qed.
    Lemma fin_orth' lam lam' mu a a' : occ lam mu -> occ lam' mu -> lam <> lam' -> 0 <= a < kz n l1 l2 lam -> 0 <= a' < kz n l1 l2 lam' -> rsum (WM mu) (fun c => (fin lam mu c a * fin lam' mu c a')%R) = 0%R.
    Proof.
      intros O O' Ne Ha Ha'. set (kk := kz n l1 l2 lam) in *. set (kk' := kz n l1 l2 lam') in *.
      rewrite (rsum_ext _ _ (fun c => rsum kk (fun m => rsum kk' (fun m' => (Xm lam mu m a * Xm lam' mu m' a' * (raw lam mu c m * raw lam' mu c m'))%R)))).
      - rewrite rsum_swap. apply rsum_zero. intros m Hm. rewrite rsum_swap. apply rsum_zero. intros m' Hm'. rewrite rsum_scal, raw_orth' by auto. ring.
      - intros c _. rewrite !fin_X by auto. fold kk kk'. rewrite <- rsum_scal_r. apply rsum_ext. intros m _. rewrite <- rsum_scal. apply rsum_ext. intros; ring.
    Qed.

    (* a table with these columns *)
    Variable F' : list Z -> Z -> Z -> R.
    Hypothesis HF : forall lam mu c a, occ lam mu -> 0 <= c < WM mu -> 0 <= a < kz n l1 l2 lam -> F' mu c (coff n l1 l2 lam mu + a) = fin lam mu c a.

    Lemma fin_rows mu c c' : is_part (n - 1) mu -> 0 <= c < WM mu -> 0 <= c' < WM mu -> rsum (WM mu) (fun j => (F' mu c j * F' mu c' j)%R) = delta c c'.
    Proof.
      intros Pm Hc Hc'. apply (square_orth (WM mu) (fun j c => F' mu c j)); auto. intros j j' Hj Hj'. destruct (coff_find mu j Pm Hj) as (lam & a & P & Hm & Ha & ->). destruct (coff_find mu j' Pm Hj') as (lam' & a' & P' & Hm' & Ha' & ->).
      assert (occ lam mu) as O by (split; [auto|split; [auto|lia]]). assert (occ lam' mu) as O' by (split; [auto|split; [auto|lia]]).
      rewrite (rsum_ext _ _ (fun x => (fin lam mu x a * fin lam' mu x a')%R)) by (intros; rewrite !HF by auto; auto).
      destruct (pdec lam lam') as [<-|Ne].
      - rewrite fin_orth by auto. unfold delta. destruct (Z.eq_dec a a'), (Z.eq_dec (coff n l1 l2 lam mu + a) (coff n l1 l2 lam mu + a')); auto; lia.
      - rewrite fin_orth' by auto. rewrite delta_ne; [auto|]. intros E. apply coff_inj in E as (E & _); auto.
    Qed.

    (* its first rows *)
    Lemma fin_rowz lam c : is_part n lam -> 0 <= c < kz n l1 l2 lam -> exists Y : Z -> Z -> R,
      (forall q r b, is_perm n q -> 0 <= r < io_d (mkirr n lam) -> 0 <= b < D -> rsum D (fun b' => (Y r b' * K q b' b)%R) = rsum (io_d (mkirr n lam)) (fun s => (rr n lam q r s * Y s b)%R)) /\
      (forall b, 0 <= b < D -> rsum (WM (mu0 lam)) (fun c' => (W (mu0 lam) 0 c' b * F' (mu0 lam) c' (coff n l1 l2 lam (mu0 lam) + c))%R) = Y 0 b).
    Proof.
      intros P Hc. assert (occ lam (mu0 lam)) as O by (apply mu0_occ; auto; lia). set (kk := kz n l1 l2 lam) in *. exists (fun r b => rsum kk (fun x => (Qm lam (mu0 lam) x c * e lam r x b)%R)). split.
      - intros q r b Hq Hr Hb. pose proof He as (E & _). pose proof (is_perm_pinv _ _ Hq) as Hi.
        rewrite (rsum_ext D _ (fun b' => rsum kk (fun x => (Qm lam (mu0 lam) x c * (K (pinv q) b b' * e lam r x b'))%R))).
        + rewrite rsum_swap. rewrite (rsum_ext kk _ (fun x => rsum (io_d (mkirr n lam)) (fun s => (rr n lam q r s * (Qm lam (mu0 lam) x c * e lam s x b))%R))).
          * rewrite rsum_swap. apply rsum_ext. intros s Hs. rewrite rsum_scal. auto.
          * intros x Hx. rewrite rsum_scal, E by auto. rewrite <- rsum_scal. apply rsum_ext. intros s Hs. rewrite (rr_inv n) by (auto; lia). ring.
        + intros b' Hb'. rewrite <- rsum_scal_r. apply rsum_ext. intros x Hx. destruct (mkirr_ok n l1 P1 ltac:(lia)) as (_ & G1). destruct (mkirr_ok n l2 P2 ltac:(lia)) as (_ & G2).
          assert (K (pinv q) b b' = K q b' b) as -> by (apply (kr_inv n l1 l2 _ _ G1 G2); auto). ring.
      - intros b Hb. pose proof (raw_e lam (mu0 lam) c b O Hc Hb) as R0. rewrite (boff_mu0 lam P) in R0. fold kk in R0. rewrite <- R0. apply rsum_ext. intros c' Hc'. rewrite HF by auto. unfold fin. replace (aligned lam (mu0 lam)) with false; [auto|]. unfold aligned. destruct (pdec (mu0 lam) (mu0 lam)); congruence.
    Qed.
  End Align.
End Adapt.

Lemma isot_product k l1 l2 : let n := Z.of_nat k + 2 in is_part n l1 -> is_part n l2 -> exists e, isotypic n (DD k l1 l2) (KK k l1 l2) (kz n l1 l2) e.
Proof.
  intros n P1 P2. assert (1 <= n) as Hn by (unfold n; lia). destruct (mkirr_ok n l1 P1 Hn) as (_ & G1). destruct (mkirr_ok n l2 P2 Hn) as (_ & G2). apply isot_exists; auto.
  - intros. apply (kr_mul n l1 l2 _ _ G1 G2); auto.
  - intros. apply (kr_id n l1 l2 _ _ G1 G2); auto.
  - intros. apply (kr_inv n l1 l2 _ _ G1 G2); auto.
  - intros. apply kz_nonneg; auto.
  - intros l Pl. destruct (kz_ok n l1 l2 l Hn P1 P2 Pl) as (-> & _). unfold kron. f_equal. apply lsum_ext. intros p _. f_equal. exact (kr_trace n l1 l2 _ _ G1 G2 p).
Qed.
