(* Learning Clebsch-Gordan factors: the vectors of the restricted product, and their components along the irreps. *)
From Coq Require Import ZArith List Bool Lia Reals Lra Sorting.Sorted Permutation.
From Verif Require Import Model_Base Model_Perm Model_Sn Model_Part Model_Comb Model_Tab Model_Irrep Model_Type Model_FFT Model_Vec Model_Char Model_CG Model_CGvec Model_Prod.
From Verif Require Import Spec_Perm Spec_Part Spec_Tab Spec_Rep Spec_Four Spec_Type Spec_FFT Spec_Vec Spec_CG Spec_CGvec Spec_Prod.
From Verif Require Import Proof_Base Proof_Perm Proof_Sn Proof_Part Proof_PartProps Proof_Tab Proof_TabProps Proof_Cycles Proof_Cox Proof_Yor Proof_Sum Proof_Irrep Proof_Rep Proof_Mat Proof_IrrepProps Proof_JM Proof_Conn Proof_Schur Proof_Restr Proof_UpDown Proof_Complete Proof_Char Proof_CharBank Proof_Type Proof_Rept Proof_FFTmath Proof_FFTlay Proof_FFTlay2 Proof_FFTblk Proof_FFTstep Proof_Vec Proof_Vec2 Proof_Vec3 Proof_Vec4 Proof_Vec5 Proof_Vec6 Proof_Vec7 Proof_Vec8 Proof_Kron Proof_CG Proof_CGdown Proof_CGvec1 Proof_CGvec2 Proof_CGvec3 Proof_CGvec4 Proof_CGvec5 Proof_CGvec6 Proof_Prod Proof_Hook Proof_Isot.
Import ListNotations.
Open Scope Z_scope.

(* ---- bilinear functions of columns ---- *)

Lemma linear_expand d (g : (Z -> R) -> R) : 0 <= d -> (forall s x x', g (fun u => (s * x u + x' u)%R) = (s * g x + g x')%R) -> (forall x x', (forall u, 0 <= u < d -> x u = x' u) -> g x = g x') ->
  forall x, g x = rsum d (fun i => (g (fun u => delta u i) * x i)%R).
Proof.
  intros Hd Hl He x. assert (g (fun _ => 0%R) = 0%R) as Z0. { pose proof (Hl 1%R (fun _ => 0%R) (fun _ => 0%R)) as H. rewrite (He _ (fun _ => 0%R)) in H; [lra|]. intros; ring. }
  assert (forall j, g (fun u => rsum (Z.of_nat j) (fun i => x i * delta u i)%R) = rsum (Z.of_nat j) (fun i => (g (fun u => delta u i) * x i)%R)) as H.
  { induction j as [|j IH]; [rewrite (He _ (fun _ => 0%R)); [rewrite Z0; symmetry; apply rsum_0|intros; apply rsum_0]|].
    replace (Z.of_nat (S j)) with (Z.of_nat j + 1) by lia. rewrite rsum_split, rsum_1, Z.add_0_r by lia. rewrite <- IH.
    rewrite (He _ (fun u => (x (Z.of_nat j) * delta u (Z.of_nat j) + rsum (Z.of_nat j) (fun i => x i * delta u i))%R)); [rewrite Hl; ring|]. intros u _. rewrite rsum_split, rsum_1, Z.add_0_r by lia. ring. }
  specialize (H (Z.to_nat d)). rewrite Z2Nat.id in H by auto. rewrite <- H. apply He. intros u Hu. rewrite (rsum_ext _ _ (fun i => (x i * delta i u)%R)) by (intros; rewrite delta_sym; auto). symmetry. apply rsum_delta. auto.
Qed.

Lemma bilinear_expand d1 d2 (f : (Z -> R) -> (Z -> R) -> R) : 0 <= d1 -> 0 < d2 -> (forall s x x' y, f (fun u => (s * x u + x' u)%R) y = (s * f x y + f x' y)%R) -> (forall s x y y', f x (fun u => (s * y u + y' u)%R) = (s * f x y + f x y')%R) ->
  (forall x y x' y', (forall u, 0 <= u < d1 -> x u = x' u) -> (forall u, 0 <= u < d2 -> y u = y' u) -> f x y = f x' y') ->
  forall x y, f x y = rsum (d1 * d2) (fun b => (f (fun u => delta u (b / d2)) (fun u => delta u (b mod d2)) * (x (b / d2)%Z * y (b mod d2)%Z))%R).
Proof.
  intros H1 H2 L1 L2 E x y. rewrite rsum_prod by lia. rewrite (linear_expand d1 (fun x => f x y)) by auto. apply rsum_ext. intros i Hi. rewrite (linear_expand d2 (f (fun u => delta u i))) by (auto; lia). rewrite <- rsum_scal_r. apply rsum_ext. intros j Hj. rewrite dm_div, dm_mod by lia. ring.
Qed.

(* ---- the columns of the restricted product ---- *)

Section Sub.
  Variables (F : ftable) (k : nat) (l1 l2 : list Z).
  Let n := Z.of_nat k + 2.
  Hypotheses (P1 : is_part n l1) (P2 : is_part n l2).
  Let Hn : 2 <= n. Proof. unfold n. lia. Qed.

  Lemma SS_ext x y x' y' mu a c : (forall u, 0 <= u < io_d (mkirr n l1) -> x u = x' u) -> (forall u, 0 <= u < io_d (mkirr n l2) -> y u = y' u) -> SSv F k l1 l2 x y mu a c = SSv F k l1 l2 x' y' mu a c.
  Proof.
    intros H1 H2. unfold SSv. cbv zeta. fold n. apply colsum_ext; [auto|]. intros p c' Hp Hc'. destruct (prs_in n l1 l2 p P1 P2 Hp) as (R1 & R2 & Q1 & Q2). replace (n - 1) with (Z.of_nat k + 1) in * by (unfold n; lia).
    apply BB_ext; auto; intros u Hu; replace (Z.of_nat k + 1) with (n - 1) in * by (unfold n; lia); [apply H1|apply H2]; apply boff_bound; auto.
  Qed.

  Lemma SS_lin1 s x x' y mu a c : SSv F k l1 l2 (fun u => (s * x u + x' u)%R) y mu a c = (s * SSv F k l1 l2 x y mu a c + SSv F k l1 l2 x' y mu a c)%R.
  Proof.
    unfold SSv. cbv zeta. rewrite <- colsum_scal, <- colsum_plus. apply colsum_ext; [auto|]. intros p c' _ _. exact (BB_lin1 F k (prem l1 (fst p)) (prem l2 (snd p)) s (fun u => x (boff _ l1 (fst p) + u)) (fun u => x' (boff _ l1 (fst p) + u)) _ mu a c').
  Qed.
  Lemma SS_lin2 s x y y' mu a c : SSv F k l1 l2 x (fun u => (s * y u + y' u)%R) mu a c = (s * SSv F k l1 l2 x y mu a c + SSv F k l1 l2 x y' mu a c)%R.
  Proof.
    unfold SSv. cbv zeta. rewrite <- colsum_scal, <- colsum_plus. apply colsum_ext; [auto|]. intros p c' _ _. exact (BB_lin2 F k (prem l1 (fst p)) (prem l2 (snd p)) s _ (fun u => y (boff _ l2 (snd p) + u)) (fun u => y' (boff _ l2 (snd p) + u)) mu a c').
  Qed.

  Definition d1 := io_d (mkirr n l1).
  Definition d2 := io_d (mkirr n l2).
  Definition DD := d1 * d2.
  Definition Wv (mu : list Z) (r c b : Z) : R := SSv F k l1 l2 (fun u => delta u (b / d2)) (fun u => delta u (b mod d2)) mu r c.

  Lemma d1_pos : 0 < d1. Proof. apply dpos; auto; lia. Qed.
  Lemma d2_pos : 0 < d2. Proof. apply dpos; auto; lia. Qed.

  Lemma SS_expand x y mu r c : SSv F k l1 l2 x y mu r c = rsum DD (fun b => (Wv mu r c b * (x (b / d2)%Z * y (b mod d2)%Z))%R).
  Proof.
    pose proof d1_pos. pose proof d2_pos. apply (bilinear_expand d1 d2 (fun x y => SSv F k l1 l2 x y mu r c)); auto; [lia|intros; apply SS_lin1|intros; apply SS_lin2|intros; apply SS_ext; auto].
  Qed.

  Lemma SS_iso x y x' y' : orthN (n - 1) F -> lsum (pl (n - 1)) (fun mu => rsum (io_d (mkirr (n - 1) mu)) (fun a => rsum (WW n l1 l2 mu) (fun c => (SSv F k l1 l2 x y mu a c * SSv F k l1 l2 x' y' mu a c)%R))) = (dot d1 x x' * dot d2 y y')%R.
  Proof.
    intros O. transitivity (lsum (pl (n - 1)) (fun mu => rsum (io_d (mkirr (n - 1) mu)) (fun a => lsum (prs l1 l2) (fun p => rsum (pk n l1 l2 mu p) (fun j => (
        BB F k (prem l1 (fst p)) (prem l2 (snd p)) (fun u => x (boff n l1 (fst p) + u)%Z) (fun u => y (boff n l2 (snd p) + u)%Z) mu a j * BB F k (prem l1 (fst p)) (prem l2 (snd p)) (fun u => x' (boff n l1 (fst p) + u)%Z) (fun u => y' (boff n l2 (snd p) + u)%Z) mu a j)%R))))).
    { apply lsum_ext. intros mu Hm. apply in_pl in Hm; [|lia]. apply rsum_ext. intros a _.
      unfold WW. apply rsum_blocks; [intros p Hp; apply pk_nonneg; auto|]. intros pre p post j E Hj. unfold SSv. cbv zeta. fold n. rewrite E. rewrite !colsum_at; auto; intros q Hq; rewrite <- E in Hq; apply pk_nonneg; auto. }
    transitivity (lsum (prs l1 l2) (fun p => bdot F k (prem l1 (fst p)) (prem l2 (snd p)) (fun u => x (boff n l1 (fst p) + u)%Z) (fun u => y (boff n l2 (snd p) + u)%Z) (fun u => x' (boff n l1 (fst p) + u)%Z) (fun u => y' (boff n l2 (snd p) + u)%Z))).
    { unfold bdot. cbv zeta. replace (Z.of_nat k + 1) with (n - 1) by (unfold n; lia). rewrite (lsum_swap (prs l1 l2)). apply lsum_ext. intros mu _. rewrite rsum_lsum, lsum_swap. apply lsum_ext. intros p _. rewrite <- rsum_lsum. reflexivity. }
    pose proof (BB_isoN F k) as IH. replace (Z.of_nat k + 1) with (n - 1) in IH by (unfold n; lia). specialize (IH O).
    rewrite (lsum_ext _ _ (fun p => (dot (io_d (mkirr (n - 1) (prem l1 (fst p)))) (fun u => x (boff n l1 (fst p) + u)%Z) (fun u => x' (boff n l1 (fst p) + u)%Z) * dot (io_d (mkirr (n - 1) (prem l2 (snd p)))) (fun u => y (boff n l2 (snd p) + u)%Z) (fun u => y' (boff n l2 (snd p) + u)%Z))%R)) by (intros p Hp; destruct (prs_in n l1 l2 p P1 P2 Hp) as (_ & _ & Q1 & Q2); apply IH; auto).
    unfold prs. rewrite lsum_prod. cbn [fst snd]. unfold dot at 3 4, d1, d2. rewrite !rsum_boff by auto. rewrite <- lsum_scal_r. apply lsum_ext. intros r Hr. rewrite lsum_scal. reflexivity.
  Qed.

  Lemma W_complete b b' : orthN (n - 1) F -> 0 <= b < DD -> 0 <= b' < DD ->
    lsum (pl (n - 1)) (fun mu => rsum (io_d (mkirr (n - 1) mu)) (fun r => rsum (WW n l1 l2 mu) (fun c => (Wv mu r c b * Wv mu r c b')%R))) = delta b b'.
  Proof.
    intros O Hb Hb'. unfold Wv. rewrite SS_iso by auto. pose proof d2_pos as D2. destruct (dm_range d1 d2 b Hb D2) as (B1 & B2). destruct (dm_range d1 d2 b' Hb' D2) as (B3 & B4). unfold dot.
    rewrite (rsum_ext d1 _ (fun u => (delta u (b' / d2) * delta u (b / d2))%R)) by (intros; ring). rewrite (rsum_delta d1 (fun u => delta u (b' / d2))) by auto. rewrite (rsum_ext d2 _ (fun u => (delta u (b' mod d2) * delta u (b mod d2))%R)) by (intros; ring). rewrite (rsum_delta d2 (fun u => delta u (b' mod d2))) by auto.
    rewrite (delta_dm d2 b b') by auto. reflexivity.
  Qed.

  Definition KK : list Z -> Z -> Z -> R := kr n (mkirr n l1) (mkirr n l2).

  Lemma KK_at p b b' : KK p b b' = (rr n l1 p (b / d2) (b' / d2) * rr n l2 p (b mod d2) (b' mod d2))%R.
  Proof. reflexivity. Qed.

  (* a family of vectors that moves like the irrep mu under the smaller group *)
  Definition fam (mu : list Z) (V : Z -> Z -> R) : Prop := forall q r b, is_perm (n - 1) q -> 0 <= r < io_d (mkirr (n - 1) mu) -> 0 <= b < DD ->
    rsum DD (fun b' => (V r b' * KK (q ++ [n]) b' b)%R) = rsum (io_d (mkirr (n - 1) mu)) (fun s => (rr (n - 1) mu q r s * V s b)%R).

  Section Pair.
    Variables (r1 r2 : Z) (mu : list Z) (Y : Z -> Z -> R).
    Hypotheses (R1 : In r1 (corners l1)) (R2 : In r2 (corners l2)).
    Let m1 := prem l1 r1.
    Let m2 := prem l2 r2.
    Let e1 := io_d (mkirr (n - 1) m1).
    Let e2 := io_d (mkirr (n - 1) m2).
    Hypothesis YE : forall q r b, is_perm (n - 1) q -> 0 <= r < io_d (mkirr (n - 1) mu) -> 0 <= b < e1 * e2 ->
      rsum (e1 * e2) (fun b' => (Y r b' * (rr (n - 1) m1 q (b' / e2) (b / e2) * rr (n - 1) m2 q (b' mod e2) (b mod e2)))%R) = rsum (io_d (mkirr (n - 1) mu)) (fun s => (rr (n - 1) mu q r s * Y s b)%R).

    Definition pf (r : Z) (x y : Z -> R) : R := rsum (e1 * e2) (fun b => (Y r b * (x (boff n l1 r1 + b / e2)%Z * y (boff n l2 r2 + b mod e2)%Z))%R).

    Let Q1 : is_part (n - 1) m1. Proof. apply corner_part; auto. Qed.
    Let Q2 : is_part (n - 1) m2. Proof. apply corner_part; auto. Qed.
    Let E2 : 0 < e2. Proof. apply dpos; auto. lia. Qed.

    Lemma pf_expand r x y : pf r x y = rsum DD (fun b => (pf r (fun u => delta u (b / d2)) (fun u => delta u (b mod d2)) * (x (b / d2)%Z * y (b mod d2)%Z))%R).
    Proof.
      pose proof d1_pos. pose proof d2_pos. apply (bilinear_expand d1 d2 (pf r)); auto; [lia|intros; unfold pf; rewrite <- rsum_scal, <- rsum_plus'; apply rsum_ext; intros; ring|intros; unfold pf; rewrite <- rsum_scal, <- rsum_plus'; apply rsum_ext; intros; ring|].
      intros x0 y0 x0' y0' Hx Hy. unfold pf. apply rsum_ext. intros b Hb. destruct (dm_range e1 e2 b Hb E2) as (B1 & B2). rewrite Hx, Hy; auto; apply boff_bound; auto.
    Qed.

    Lemma pf_equi q r x y : is_perm (n - 1) q -> 0 <= r < io_d (mkirr (n - 1) mu) -> pf r (mv n l1 (q ++ [n]) x) (mv n l2 (q ++ [n]) y) = rsum (io_d (mkirr (n - 1) mu)) (fun s => (rr (n - 1) mu q r s * pf s x y)%R).
    Proof.
      intros Hq Hr. unfold pf.
      transitivity (rsum (e1 * e2) (fun b' => rsum (e1 * e2) (fun b => (Y r b' * (rr (n - 1) m1 q (b' / e2) (b / e2) * rr (n - 1) m2 q (b' mod e2) (b mod e2)) * (x (boff n l1 r1 + b / e2)%Z * y (boff n l2 r2 + b mod e2)%Z))%R))).
      - apply rsum_ext. intros b' Hb'. destruct (dm_range e1 e2 b' Hb' E2) as (B1 & B2).
        unfold mv. rewrite (sub_row_sum n l1 q r1 (b' / e2)) by auto. rewrite (sub_row_sum n l2 q r2 (b' mod e2)) by auto. change (hrow n l1 r1) with e1. change (hrow n l2 r2) with e2.
        rewrite (rsum_prod e1 e2) by (auto; lia). rewrite <- rsum_scal_r. rewrite <- rsum_scal. apply rsum_ext. intros i Hi. rewrite <- !rsum_scal. apply rsum_ext. intros j Hj. rewrite dm_div, dm_mod by lia. fold m1 m2. ring.
      - rewrite rsum_swap. rewrite (rsum_ext (io_d (mkirr (n - 1) mu)) _ (fun s => rsum (e1 * e2) (fun b => (rr (n - 1) mu q r s * Y s b * (x (boff n l1 r1 + b / e2)%Z * y (boff n l2 r2 + b mod e2)%Z))%R))) by (intros; rewrite <- rsum_scal; apply rsum_ext; intros; ring).
        rewrite (rsum_swap (io_d (mkirr (n - 1) mu))). apply rsum_ext. intros b Hb. rewrite !rsum_scal_r. rewrite YE by auto. auto.
    Qed.

    Lemma pf_fam : fam mu (fun r b => pf r (fun u => delta u (b / d2)) (fun u => delta u (b mod d2))).
    Proof.
      intros q r b Hq Hr Hb. cbv beta. rewrite <- pf_equi by auto. rewrite (pf_expand r (mv n l1 (q ++ [n]) _)). apply rsum_ext. intros b' Hb'. rewrite KK_at. pose proof d2_pos as D2. destruct (dm_range d1 d2 b Hb D2) as (B1 & B2). unfold mv. fold d1 d2.
      rewrite (rsum_delta d1 (fun v => rr n l1 (q ++ [n]) (b' / d2) v)) by auto. rewrite (rsum_delta d2 (fun v => rr n l2 (q ++ [n]) (b' mod d2) v)) by auto. reflexivity.
    Qed.
  End Pair.

  (* the first row of each part of a product of the smaller group belongs to such a family *)
  Definition rowz_at (m1 m2 mu : list Z) (c : Z) : Prop := let m := Z.of_nat k + 1 in let e1 := io_d (mkirr m m1) in let e2 := io_d (mkirr m m2) in
    exists Y : Z -> Z -> R, (forall q r b, is_perm m q -> 0 <= r < io_d (mkirr m mu) -> 0 <= b < e1 * e2 ->
      rsum (e1 * e2) (fun b' => (Y r b' * (rr m m1 q (b' / e2) (b / e2) * rr m m2 q (b' mod e2) (b mod e2)))%R) = rsum (io_d (mkirr m mu)) (fun s => (rr m mu q r s * Y s b)%R)) /\
      (forall b, 0 <= b < e1 * e2 -> BB F k m1 m2 (fun u => delta u (b / e2)) (fun u => delta u (b mod e2)) mu 0 c = Y 0 b).
End Sub.

Definition rowz (F : ftable) (k : nat) : Prop := let m := Z.of_nat k + 1 in forall m1 m2 mu c, is_part m m1 -> is_part m m2 -> is_part m mu -> 0 <= c < kz m m1 m2 mu -> rowz_at F k m1 m2 mu c.

Section Rows.
  Variables (F : ftable) (k : nat) (l1 l2 : list Z).
  Let n := Z.of_nat k + 2.
  Hypotheses (P1 : is_part n l1) (P2 : is_part n l2).
  Let Hn : 2 <= n. Proof. unfold n. lia. Qed.

  Lemma W_fam mu c : rowz F k -> is_part (n - 1) mu -> 0 <= c < WW n l1 l2 mu -> exists V, fam k l1 l2 mu V /\ forall b, 0 <= b < DD k l1 l2 -> Wv F k l1 l2 mu 0 c b = V 0 b.
  Proof.
    intros HR Pm Hc. destruct (block_find (prs l1 l2) (pk n l1 l2 mu) c) as (pre & p & post & j & E & Hj & ->); [intros; apply pk_nonneg; auto|exact Hc|].
    assert (In p (prs l1 l2)) as Hp by (rewrite E; apply in_app_iff; right; left; auto). destruct (prs_in n l1 l2 p P1 P2 Hp) as (R1 & R2 & Q1 & Q2).
    assert (Z.of_nat k + 1 = n - 1) as En by (unfold n; lia). unfold rowz in HR. cbv zeta in HR. rewrite En in HR. destruct (HR _ _ mu j Q1 Q2 Pm) as (Y & Y1 & Y2); [exact Hj|]. rewrite En in *.
    exists (fun r b => pf k l1 l2 (fst p) (snd p) Y r (fun u => delta u (b / d2 k l2)) (fun u => delta u (b mod d2 k l2))). split; [apply pf_fam; auto|].
    intros b Hb. unfold Wv, SSv. cbv zeta. fold n. rewrite E, colsum_at; [|intros q Hq; rewrite <- E in Hq; apply pk_nonneg; auto|auto]. unfold pf. fold n.
    rewrite (bilinear_expand (io_d (mkirr (n - 1) (prem l1 (fst p)))) (io_d (mkirr (n - 1) (prem l2 (snd p)))) (fun x y => BB F k (prem l1 (fst p)) (prem l2 (snd p)) x y mu 0 j)).
    - apply rsum_ext. intros b0 Hb0. rewrite Y2 by auto. reflexivity.
    - pose proof (dpos (n - 1) _ ltac:(lia) Q1). lia.
    - apply dpos; auto. lia.
    - intros. apply BB_lin1.
    - intros. apply BB_lin2.
    - intros. apply BB_ext; rewrite ?En; auto.
  Qed.
End Rows.

(* ---- Schur's lemma ---- *)
Lemma schur n mu nu (X : Z -> Z -> R) : 1 <= n -> is_part n mu -> is_part n nu ->
  (forall q r s, is_perm n q -> 0 <= r < io_d (mkirr n mu) -> 0 <= s < io_d (mkirr n nu) -> rsum (io_d (mkirr n nu)) (fun s' => (rr n nu q s' s * X r s')%R) = rsum (io_d (mkirr n mu)) (fun r' => (rr n mu q r r' * X r' s)%R)) ->
  forall r s, 0 <= r < io_d (mkirr n mu) -> 0 <= s < io_d (mkirr n nu) -> X r s = if list_eq_dec Z.eq_dec mu nu then (delta r s * X 0%Z 0%Z)%R else 0%R.
Proof.
  intros Hn Pm Pn H. set (L := all_perms n). pose proof (all_perms_lists n ltac:(lia)) as HL. fold L in HL. pose proof (fact_pos n) as Fp.
  assert (forall r s, 0 <= r < io_d (mkirr n mu) -> 0 <= s < io_d (mkirr n nu) -> X r s = if list_eq_dec Z.eq_dec mu nu then (delta r s * (rsum (io_d (mkirr n mu)) (fun t => X t t) / dimR n mu))%R else 0%R) as A.
  { intros r s Hr Hs. apply (Rmult_eq_reg_l (IZR (zfact n))); [|lra].
    transitivity (lsum L (fun q => rsum (io_d (mkirr n nu)) (fun t => rsum (io_d (mkirr n mu)) (fun r' => (rr n mu q r r' * rr n nu q s t * X r' t)%R)))).
    - rewrite <- (lsum_zlen_L n Hn). rewrite <- (lsum_const L). apply lsum_ext. intros q Hq. apply HL in Hq.
      transitivity (rsum (io_d (mkirr n nu)) (fun t => (rr n nu q s t * rsum (io_d (mkirr n nu)) (fun s' => (rr n nu q s' t * X r s')%R))%R)).
      + rewrite (rsum_ext _ _ (fun t => rsum (io_d (mkirr n nu)) (fun s' => (rr n nu q s t * rr n nu q s' t * X r s')%R))) by (intros; rewrite <- rsum_scal; apply rsum_ext; intros; ring). rewrite rsum_swap.
        rewrite (rsum_ext _ _ (fun s' => (X r s' * delta s' s)%R)); [symmetry; apply rsum_delta; auto|]. intros s' Hs'. rewrite rsum_scal_r, Rmult_comm. f_equal.
        rewrite <- (rr_id n Hn nu s' s) by auto. rewrite <- (pmul_pinv_r n q Hq), (rr_mul n Hn) by (auto; apply is_perm_pinv; auto). apply rsum_ext. intros t Ht. rewrite (rr_inv n Hn) by auto. ring.
      + apply rsum_ext. intros t Ht. rewrite H by auto. rewrite <- rsum_scal. apply rsum_ext. intros; ring.
    - rewrite lsum_rsum. rewrite (rsum_ext (io_d (mkirr n nu)) _ (fun t => rsum (io_d (mkirr n mu)) (fun r' => if list_eq_dec Z.eq_dec mu nu then (delta r' t * (delta r s * (IZR (zfact n) / dimR n mu) * X r' t))%R else 0%R))).
      + destruct (list_eq_dec Z.eq_dec mu nu) as [<-|Ne]; [|rewrite Rmult_0_r; apply rsum_zero; intros; apply rsum_zero; auto].
        rewrite (rsum_ext _ _ (fun t => (delta r s * (IZR (zfact n) / dimR n mu) * X t t)%R)).
        * rewrite rsum_scal. pose proof (dimR_pos n mu Pm Hn). field. lra.
        * intros t Ht. rewrite (rsum_pick _ _ t) by (auto; intros j Hj Nj; rewrite delta_ne by auto; ring). rewrite delta_refl. ring.
      + intros t Ht. rewrite lsum_rsum. apply rsum_ext. intros r' Hr'. rewrite lsum_scal_r, (rr_orth n Hn) by auto. destruct (list_eq_dec Z.eq_dec mu nu); ring. }
  intros r s Hr Hs. rewrite A by auto. destruct (list_eq_dec Z.eq_dec mu nu) as [<-|Ne]; [|auto]. rewrite (A 0 0) by lia. destruct (list_eq_dec Z.eq_dec mu mu); [|congruence]. rewrite delta_refl. ring.
Qed.

(* ---- the content of the last box ---- *)
Definition ct (lam : list Z) (r : Z) : Z := row lam r - 1 - r.

Lemma cont_boff n lam r s : 2 <= n -> is_part n lam -> In r (corners lam) -> 0 <= s < io_d (mkirr (n - 1) (prem lam r)) -> cont (tb (mkirr n lam) (boff n lam r + s)) n = ct lam r.
Proof.
  intros Hn P Hr Hs. destruct (mkirr_ok n lam P ltac:(lia)) as (_ & G). destruct (cix n lam r Hr) as (A & B). unfold boff. rewrite (tb_block n lam _ Hn G) by (rewrite ?sub_row; auto). rewrite B, sub_row by auto.
  pose proof (corner_part n lam r P Hr) as Pm. destruct (mkirr_ok (n - 1) (prem lam r) Pm ltac:(lia)) as (_ & Gm).
  rewrite (cont_yadd n lam r); [|auto|lia|auto|exact (tb_standard (n - 1) _ _ s Gm Hs)|lia].
  destruct (Z.eqb_spec n n); [|congruence]. unfold ct. lia.
Qed.

Lemma ct_inj n lam lam' r r' : 2 <= n -> is_part n lam -> is_part n lam' -> In r (corners lam) -> In r' (corners lam') -> prem lam r = prem lam' r' -> ct lam r = ct lam' r' -> lam = lam' /\ r = r'.
Proof.
  intros Hn P P' Hr Hr' E C. pose proof (corner_part n lam r P Hr) as Pm. pose proof (rem_add n lam r P Hr) as A. pose proof (rem_add n lam' r' P' Hr') as A'. rewrite <- E in A'.
  assert (r = r') as <-.
  { pose proof (add_row (n - 1) (prem lam r) r r Pm A ltac:(apply in_adds in A; lia)) as E1. rewrite (padd_rem n) in E1 by auto. pose proof (add_row (n - 1) (prem lam r) r' r' Pm A' ltac:(apply in_adds in A'; lia)) as E2. rewrite E, (padd_rem n) in E2 by auto. rewrite <- E in E2. rewrite Z.eqb_refl in *. unfold ct in C.
    apply in_adds in A as (A1 & _), A' as (A1' & _). assert (forall i j, 0 <= i <= j -> row (prem lam r) j <= row (prem lam r) i) as Mono by (intros; apply (Proof_Hook.row_mono (n - 1)); auto; lia).
    destruct (Z.lt_trichotomy r r') as [L|[|L]]; auto; [specialize (Mono r r' ltac:(lia))|specialize (Mono r' r ltac:(lia))]; lia. }
  split; [|auto]. rewrite <- (padd_rem n lam r), <- (padd_rem n lam' r) by auto. rewrite E. auto.
Qed.
