(* The Clebsch-Gordan product of vectors: the value is bilinear, preserves inner products and commutes with the smaller group. *)
From Coq Require Import ZArith List Bool Lia Reals Lra Sorting.Sorted Permutation.
From Verif Require Import Model_Base Model_Perm Model_Sn Model_Part Model_Comb Model_Tab Model_Irrep Model_Type Model_FFT Model_Vec Model_Char Model_CG Model_CGvec.
From Verif Require Import Spec_Perm Spec_Part Spec_Tab Spec_Rep Spec_Four Spec_Type Spec_FFT Spec_Vec.
From Verif Require Import Proof_Base Proof_Perm Proof_Sn Proof_Part Proof_PartProps Proof_Tab Proof_TabProps Proof_Cycles Proof_Cox Proof_Yor Proof_Sum Proof_Irrep Proof_Rep Proof_Mat Proof_IrrepProps Proof_JM Proof_Conn Proof_Schur Proof_Restr Proof_UpDown Proof_Complete Proof_CharBank Proof_Type Proof_Rept Proof_FFTmath Proof_FFTlay Proof_FFTlay2 Proof_FFTblk Proof_FFTstep Proof_Vec Proof_Vec2 Proof_Vec3 Proof_Vec4 Proof_Vec5 Proof_Vec6 Proof_Vec7 Proof_Vec8 Proof_Kron Proof_CG Proof_CGdown Proof_CGvec1 Proof_CGvec2 Proof_CGvec3.
Import ListNotations.
Open Scope Z_scope.

Definition SSv (F : ftable) (k : nat) (l1 l2 : list Z) (x y : Z -> R) (mu : list Z) (a c : Z) : R :=
  let n := Z.of_nat k + 2 in
  colsum (prs l1 l2) (pk n l1 l2 mu) (fun p c => BB F k (prem l1 (fst p)) (prem l2 (snd p)) (fun u => x (boff n l1 (fst p) + u)) (fun u => y (boff n l2 (snd p) + u)) mu a c) c.
Definition TTv (F : ftable) (k : nat) (l1 l2 : list Z) (x y : Z -> R) (mu : list Z) (a j : Z) : R :=
  rsum (WW (Z.of_nat k + 2) l1 l2 mu) (fun c => (SSv F k l1 l2 x y mu a c * F l1 l2 mu c j)%R).

Lemma BB_S F k l1 l2 x y lam i j : BB F (S k) l1 l2 x y lam i j = colsum (corners lam) (hrow (Z.of_nat k + 2) lam) (fun r a => TTv F k l1 l2 x y (prem lam r) a (coff (Z.of_nat k + 2) l1 l2 lam (prem lam r) + j)) i.
Proof. reflexivity. Qed.

Lemma BB_S_at F k l1 l2 x y lam r a j : In r (corners lam) -> 0 <= a < hrow (Z.of_nat k + 2) lam r -> BB F (S k) l1 l2 x y lam (boff (Z.of_nat k + 2) lam r + a) j = TTv F k l1 l2 x y (prem lam r) a (coff (Z.of_nat k + 2) l1 l2 lam (prem lam r) + j).
Proof.
  intros Hr Ha. rewrite BB_S. apply in_split in Hr as (pre & post & E). rewrite (boff_split _ lam pre r post E). rewrite E. change (tops (hrow (Z.of_nat k + 2) lam) pre) with (zsum_over pre (hrow (Z.of_nat k + 2) lam)). rewrite colsum_at; [reflexivity|intros; apply hrow_nonneg|auto].
Qed.

(* ---- linear in each argument ---- *)

Lemma BB_lin1 F k : forall l1 l2 s x x' y lam i j, BB F k l1 l2 (fun u => (s * x u + x' u)%R) y lam i j = (s * BB F k l1 l2 x y lam i j + BB F k l1 l2 x' y lam i j)%R.
Proof.
  induction k as [|k IH]; intros l1 l2 s x x' y lam i j; cbn [BB]; [ring|]. cbv zeta. rewrite <- colsum_scal, <- colsum_plus. apply colsum_ext; [auto|]. intros r a _ _. rewrite <- rsum_scal. rewrite !rsum_lsum, <- lsum_plus. apply lsum_ext. intros c _.
  rewrite (colsum_ext _ _ (pk (Z.of_nat k + 2) l1 l2 (prem lam r)) _ (fun p c => (s * BB F k (prem l1 (fst p)) (prem l2 (snd p)) (fun u => x (boff (Z.of_nat k + 2) l1 (fst p) + u)%Z) (fun u => y (boff (Z.of_nat k + 2) l2 (snd p) + u)%Z) (prem lam r) a c + BB F k (prem l1 (fst p)) (prem l2 (snd p)) (fun u => x' (boff (Z.of_nat k + 2) l1 (fst p) + u)%Z) (fun u => y (boff (Z.of_nat k + 2) l2 (snd p) + u)%Z) (prem lam r) a c)%R)); [|auto|intros; apply IH].
  rewrite colsum_plus, colsum_scal. ring.
Qed.

Lemma BB_lin2 F k : forall l1 l2 s x y y' lam i j, BB F k l1 l2 x (fun u => (s * y u + y' u)%R) lam i j = (s * BB F k l1 l2 x y lam i j + BB F k l1 l2 x y' lam i j)%R.
Proof.
  induction k as [|k IH]; intros l1 l2 s x y y' lam i j; cbn [BB]; [ring|]. cbv zeta. rewrite <- colsum_scal, <- colsum_plus. apply colsum_ext; [auto|]. intros r a _ _. rewrite <- rsum_scal. rewrite !rsum_lsum, <- lsum_plus. apply lsum_ext. intros c _.
  rewrite (colsum_ext _ _ (pk (Z.of_nat k + 2) l1 l2 (prem lam r)) _ (fun p c => (s * BB F k (prem l1 (fst p)) (prem l2 (snd p)) (fun u => x (boff (Z.of_nat k + 2) l1 (fst p) + u)%Z) (fun u => y (boff (Z.of_nat k + 2) l2 (snd p) + u)%Z) (prem lam r) a c + BB F k (prem l1 (fst p)) (prem l2 (snd p)) (fun u => x (boff (Z.of_nat k + 2) l1 (fst p) + u)%Z) (fun u => y' (boff (Z.of_nat k + 2) l2 (snd p) + u)%Z) (prem lam r) a c)%R)); [|auto|intros; apply IH].
  rewrite colsum_plus, colsum_scal. ring.
Qed.

(* ---- inner products ---- *)

Definition orth (F : ftable) : Prop := forall n l1 l2 mu c e, 2 <= n -> is_part n l1 -> is_part n l2 -> is_part (n - 1) mu -> 0 <= c < WW n l1 l2 mu -> 0 <= e < WW n l1 l2 mu ->
  rsum (WW n l1 l2 mu) (fun j => (F l1 l2 mu c j * F l1 l2 mu e j)%R) = delta c e.

Definition orthN (N : Z) (F : ftable) : Prop := forall n l1 l2 mu c e, 2 <= n <= N -> is_part n l1 -> is_part n l2 -> is_part (n - 1) mu -> 0 <= c < WW n l1 l2 mu -> 0 <= e < WW n l1 l2 mu ->
  rsum (WW n l1 l2 mu) (fun j => (F l1 l2 mu c j * F l1 l2 mu e j)%R) = delta c e.
Lemma orth_N F N : orth F -> orthN N F.
Proof. intros O n l1 l2 mu c e Hn. apply (O n); lia. Qed.
Lemma orthN_le F N M : M <= N -> orthN N F -> orthN M F.
Proof. intros H O n l1 l2 mu c e Hn. apply (O n); lia. Qed.

Lemma orth_sum W (f : Z -> Z -> R) (s s' : Z -> R) : (forall c e, 0 <= c < W -> 0 <= e < W -> rsum W (fun j => (f c j * f e j)%R) = delta c e) ->
  rsum W (fun j => (rsum W (fun c => s c * f c j) * rsum W (fun c => s' c * f c j))%R) = rsum W (fun c => (s c * s' c)%R).
Proof.
  intros H. transitivity (rsum W (fun c => rsum W (fun e => (s c * s' e * rsum W (fun j => f c j * f e j))%R))).
  - transitivity (rsum W (fun j => rsum W (fun c => rsum W (fun e => (s c * s' e * (f c j * f e j))%R)))).
    + apply rsum_ext. intros j _. rewrite <- rsum_scal_r. apply rsum_ext. intros c _. rewrite <- rsum_scal. apply rsum_ext. intros e _. ring.
    + rewrite rsum_swap. apply rsum_ext. intros c _. rewrite rsum_swap. apply rsum_ext. intros e _. apply rsum_scal.
  - apply rsum_ext. intros c Hc. rewrite (rsum_ext _ _ (fun e => (delta c e * (s c * s' e))%R)) by (intros e He; rewrite H by auto; ring). apply (rsum_delta_l W (fun e => (s c * s' e)%R)); auto.
Qed.

Lemma lsum_prod {A B} (X : list A) (Y : list B) (f : A * B -> R) : lsum (list_prod X Y) f = lsum X (fun x => lsum Y (fun y => f (x, y))).
Proof. induction X as [|x X IH]; auto. cbn [list_prod]. rewrite lsum_app, lsum_cons, IH, lsum_map. auto. Qed.

Lemma lsum_below n lam (g : list Z -> R) : 2 <= n -> is_part n lam -> lsum (corners lam) (fun r => g (prem lam r)) = lsum (pl (n - 1)) (fun mu => if isin mu (belows lam) then g mu else 0%R).
Proof.
  intros Hn Pl. rewrite <- (lsum_map (prem lam)). fold (belows lam). destruct (belows_spec n lam Pl ltac:(lia)) as (Nb & Sb). symmetry.
  rewrite (lsum_list_sub pdec (belows lam)); [|auto|apply NoDup_plist| |].
  - apply lsum_ext. intros mu Hm. rewrite (proj2 (isin_true _ _) Hm). auto.
  - intros mu Hm. apply in_pl; [lia|]. apply Sb; auto.
  - intros mu _ N. destruct (isin mu (belows lam)) eqn:E; auto. apply isin_true in E. contradiction.
Qed.

(* all the columns of mu, once *)
Lemma coff_all n l1 l2 mu (H : Z -> R) : 2 <= n -> is_part n l1 -> is_part n l2 -> is_part (n - 1) mu ->
  lsum (pl n) (fun lam => if isin mu (belows lam) then rsum (kz n l1 l2 lam) (fun j => H (coff n l1 l2 lam mu + j)) else 0%R) = rsum (WW n l1 l2 mu) H.
Proof.
  intros Hn P1 P2 Pm. destruct (cgt_ok n l1 l2 ltac:(lia) P1 P2) as ((T & _) & _). pose proof (type_nodup n _ T) as N. rewrite <- lk_total by auto.
  rewrite (rsum_blocks (map fst (cgt l1 l2)) (lk n l1 l2 mu) H (fun lam j => H (coff n l1 l2 lam mu + j))).
  - rewrite (lsum_list_sub pdec (map fst (cgt l1 l2))); [|auto|apply NoDup_plist| |].
    + apply lsum_ext. intros lam _. unfold lk. destruct (isin mu (belows lam)); auto.
    + intros c Hc. apply (cgt_keys n) in Hc; auto; [|lia]. apply in_pl; [lia|apply Hc].
    + intros c Hc Nc. apply in_pl in Hc; [|lia]. destruct (isin mu (belows c)); auto. pose proof (kz_nonneg n l1 l2 c ltac:(lia) P1 P2 Hc). rewrite (cgt_keys n) in Nc by (auto; lia). destruct (Z.eq_dec (kz n l1 l2 c) 0) as [->|]; [apply rsum_0|]. destruct Nc. split; [auto|lia].
  - intros c Hc. apply (cgt_keys n) in Hc as (Pc & K); auto; [|lia]. unfold lk. destruct (isin mu (belows c)); lia.
  - intros pre lam post j E Hj. unfold coff. rewrite E, before_split; [auto|]. rewrite E in N. apply NoDup_remove_2 in N. rewrite in_app_iff in N. tauto.
Qed.

Definition bdot (F : ftable) (k : nat) (l1 l2 : list Z) (x y x' y' : Z -> R) : R :=
  let n := Z.of_nat k + 1 in
  lsum (pl n) (fun lam => rsum (io_d (mkirr n lam)) (fun i => rsum (kz n l1 l2 lam) (fun j => (BB F k l1 l2 x y lam i j * BB F k l1 l2 x' y' lam i j)%R))).
Definition dot (d : Z) (x x' : Z -> R) : R := rsum d (fun u => (x u * x' u)%R).

Lemma BB_isoN F k : orthN (Z.of_nat k + 1) F -> forall l1 l2 x y x' y', is_part (Z.of_nat k + 1) l1 -> is_part (Z.of_nat k + 1) l2 ->
  bdot F k l1 l2 x y x' y' = (dot (io_d (mkirr (Z.of_nat k + 1) l1)) x x' * dot (io_d (mkirr (Z.of_nat k + 1) l2)) y y')%R.
Proof.
  induction k as [|k IH]; intros O l1 l2 x y x' y' P1 P2.
  - change (Z.of_nat 0 + 1) with 1 in *. rewrite (is_part_1 _ P1), (is_part_1 _ P2). unfold bdot, dot. cbv zeta. change (Z.of_nat 0 + 1) with 1. change (pl 1) with [[1]]. rewrite lsum_cons, lsum_nil, d_one, kz_one. rewrite !rsum_lsum. change (zrange 0 1) with [0]. rewrite !lsum_cons, !lsum_nil. cbn [BB]. rewrite rsum_lsum. change (zrange 0 1) with [0]. rewrite lsum_cons, lsum_nil. ring.
  - unfold bdot. cbv zeta. replace (Z.of_nat (S k) + 1) with (Z.of_nat k + 2) in * by lia. remember (Z.of_nat k + 2) as n eqn:En. assert (2 <= n) as Hn by lia.
    set (H := fun mu a c => (TTv F k l1 l2 x y mu a c * TTv F k l1 l2 x' y' mu a c)%R).
    transitivity (lsum (pl n) (fun lam => lsum (pl (n - 1)) (fun mu => if isin mu (belows lam) then rsum (io_d (mkirr (n - 1) mu)) (fun a => rsum (kz n l1 l2 lam) (fun j => H mu a (coff n l1 l2 lam mu + j))) else 0%R))).
    { apply lsum_ext. intros lam Hl. apply in_pl in Hl; [|lia]. rewrite <- (lsum_below n lam (fun mu => rsum (io_d (mkirr (n - 1) mu)) (fun a => rsum (kz n l1 l2 lam) (fun j => H mu a (coff n l1 l2 lam mu + j)))) Hn Hl). rewrite rsum_boff by auto. apply lsum_ext. intros r Hr. apply rsum_ext. intros a Ha. apply rsum_ext. intros j Hj. unfold H. subst n. rewrite !BB_S_at by auto. reflexivity. }
    rewrite lsum_swap.
    transitivity (lsum (pl (n - 1)) (fun mu => rsum (io_d (mkirr (n - 1) mu)) (fun a => rsum (WW n l1 l2 mu) (H mu a)))).
    { apply lsum_ext. intros mu Hm. apply in_pl in Hm; [|lia].
      transitivity (rsum (io_d (mkirr (n - 1) mu)) (fun a => lsum (pl n) (fun lam => if isin mu (belows lam) then rsum (kz n l1 l2 lam) (fun j => H mu a (coff n l1 l2 lam mu + j)) else 0%R))).
      - rewrite rsum_lsum, lsum_swap. apply lsum_ext. intros lam _. destruct (isin mu (belows lam)); [apply rsum_lsum|]. symmetry. apply lsum_0. auto.
      - apply rsum_ext. intros a _. apply coff_all; auto. }
    transitivity (lsum (pl (n - 1)) (fun mu => rsum (io_d (mkirr (n - 1) mu)) (fun a => lsum (prs l1 l2) (fun p => rsum (pk n l1 l2 mu p) (fun j => (
        BB F k (prem l1 (fst p)) (prem l2 (snd p)) (fun u => x (boff n l1 (fst p) + u)%Z) (fun u => y (boff n l2 (snd p) + u)%Z) mu a j * BB F k (prem l1 (fst p)) (prem l2 (snd p)) (fun u => x' (boff n l1 (fst p) + u)%Z) (fun u => y' (boff n l2 (snd p) + u)%Z) mu a j)%R))))).
    { apply lsum_ext. intros mu Hm. apply in_pl in Hm; [|lia]. apply rsum_ext. intros a _. unfold H, TTv. rewrite <- En. rewrite (orth_sum (WW n l1 l2 mu) (F l1 l2 mu)) by (intros; apply (O n); auto; lia).
      unfold WW. apply rsum_blocks; [intros p Hp; apply pk_nonneg; auto|]. intros pre p post j E Hj. unfold SSv. cbv zeta. rewrite <- En, E. rewrite !colsum_at; auto; intros q Hq; rewrite <- E in Hq; apply pk_nonneg; auto. }
    transitivity (lsum (prs l1 l2) (fun p => bdot F k (prem l1 (fst p)) (prem l2 (snd p)) (fun u => x (boff n l1 (fst p) + u)%Z) (fun u => y (boff n l2 (snd p) + u)%Z) (fun u => x' (boff n l1 (fst p) + u)%Z) (fun u => y' (boff n l2 (snd p) + u)%Z))).
    { unfold bdot. cbv zeta. replace (Z.of_nat k + 1) with (n - 1) by lia. rewrite (lsum_swap (prs l1 l2)). apply lsum_ext. intros mu _. rewrite rsum_lsum, lsum_swap. apply lsum_ext. intros p _. rewrite <- rsum_lsum. reflexivity. }
    replace (Z.of_nat k + 1) with (n - 1) in IH by lia. specialize (IH (orthN_le F n (n - 1) ltac:(lia) O)).
    rewrite (lsum_ext _ _ (fun p => (dot (io_d (mkirr (n - 1) (prem l1 (fst p)))) (fun u => x (boff n l1 (fst p) + u)%Z) (fun u => x' (boff n l1 (fst p) + u)%Z) * dot (io_d (mkirr (n - 1) (prem l2 (snd p)))) (fun u => y (boff n l2 (snd p) + u)%Z) (fun u => y' (boff n l2 (snd p) + u)%Z))%R)) by (intros p Hp; destruct (prs_in n l1 l2 p P1 P2 Hp) as (_ & _ & Q1 & Q2); apply IH; auto).
    unfold prs. rewrite lsum_prod. cbn [fst snd]. unfold dot at 3 4. rewrite !rsum_boff by auto. rewrite <- lsum_scal_r. apply lsum_ext. intros r Hr. rewrite lsum_scal. reflexivity.
Qed.

Lemma BB_iso F k : orth F -> forall l1 l2 x y x' y', is_part (Z.of_nat k + 1) l1 -> is_part (Z.of_nat k + 1) l2 ->
  bdot F k l1 l2 x y x' y' = (dot (io_d (mkirr (Z.of_nat k + 1) l1)) x x' * dot (io_d (mkirr (Z.of_nat k + 1) l2)) y y')%R.
Proof. intros O. apply BB_isoN. apply orth_N. auto. Qed.

(* ---- the smaller group ---- *)

Definition mv (n : Z) (l q : list Z) (x : Z -> R) (u : Z) : R := rsum (io_d (mkirr n l)) (fun v => (rr n l q u v * x v)%R).

Definition equi (F : ftable) (k : nat) : Prop := let n := Z.of_nat k + 1 in forall l1 l2 lam q x y i j, is_part n l1 -> is_part n l2 -> is_part n lam -> is_perm n q -> 0 <= i < io_d (mkirr n lam) -> 0 <= j < kz n l1 l2 lam ->
  BB F k l1 l2 (mv n l1 q x) (mv n l2 q y) lam i j = rsum (io_d (mkirr n lam)) (fun i' => (rr n lam q i i' * BB F k l1 l2 x y lam i' j)%R).

Lemma equi_down F k : equi F k -> let n := Z.of_nat k + 2 in forall l1 l2 lam q x y i j, is_part n l1 -> is_part n l2 -> is_part n lam -> is_perm (n - 1) q -> 0 <= i < io_d (mkirr n lam) -> 0 <= j ->
  BB F (S k) l1 l2 (mv n l1 (q ++ [n]) x) (mv n l2 (q ++ [n]) y) lam i j = rsum (io_d (mkirr n lam)) (fun i' => (rr n lam (q ++ [n]) i i' * BB F (S k) l1 l2 x y lam i' j)%R).
Proof.
  intros E. cbv zeta. intros l1 l2 lam q x y i j P1 P2 Pl Hq Hi Hj. unfold equi in E. cbv zeta in E. remember (Z.of_nat k + 2) as n eqn:En. replace (Z.of_nat k + 1) with (n - 1) in E by lia. assert (2 <= n) as Hn by lia.
  destruct (boff_find n lam i Pl Hn Hi) as (r & a & Hr & Ha & ->). rewrite (sub_row_sum n lam q r a) by auto. rewrite En in *. rewrite BB_S_at by auto. rewrite <- En in *.
  rewrite (rsum_ext _ _ (fun a' => (rr (n - 1) (prem lam r) q a a' * TTv F k l1 l2 x y (prem lam r) a' (coff n l1 l2 lam (prem lam r) + j)%Z)%R)) by (intros a' Ha'; rewrite En in *; rewrite BB_S_at by auto; reflexivity).
  set (mu := prem lam r) in *. assert (is_part (n - 1) mu) as Pm by (eapply corner_part; eauto). unfold TTv. rewrite <- En.
  rewrite (rsum_ext (hrow n lam r) _ (fun a' => rsum (WW n l1 l2 mu) (fun c => (rr (n - 1) mu q a a' * SSv F k l1 l2 x y mu a' c * F l1 l2 mu c (coff n l1 l2 lam mu + j)%Z)%R))) by (intros a' _; rewrite <- rsum_scal; apply rsum_ext; intros; ring).
  rewrite rsum_swap. apply rsum_ext. intros c Hc. rewrite rsum_scal_r. f_equal. unfold SSv. cbv zeta. rewrite <- En.
  transitivity (colsum (prs l1 l2) (pk n l1 l2 mu) (fun p c => rsum (hrow n lam r) (fun a' => (rr (n - 1) mu q a a' * BB F k (prem l1 (fst p)) (prem l2 (snd p)) (fun u => x (boff n l1 (fst p) + u)%Z) (fun u => y (boff n l2 (snd p) + u)%Z) mu a' c)%R)) c).
  - apply colsum_ext; [auto|]. intros p c' Hp Hc'. destruct (prs_in n l1 l2 p P1 P2 Hp) as (R1 & R2 & Q1 & Q2). unfold hrow. rewrite <- E by auto. replace (n - 1) with (Z.of_nat k + 1) in * by lia. apply BB_ext; auto; intros u Hu.
    + unfold mv. replace (Z.of_nat k + 1) with (n - 1) in * by lia. rewrite (sub_row_sum n l1 q (fst p) u) by auto. reflexivity.
    + unfold mv. replace (Z.of_nat k + 1) with (n - 1) in * by lia. rewrite (sub_row_sum n l2 q (snd p) u) by auto. reflexivity.
  - rewrite (colsum_rsum _ _ _ (fun a' p c => (rr (n - 1) mu q a a' * BB F k (prem l1 (fst p)) (prem l2 (snd p)) (fun u => x (boff n l1 (fst p) + u)%Z) (fun u => y (boff n l2 (snd p) + u)%Z) mu a' c)%R)). apply rsum_ext. intros a' Ha'. apply colsum_scal.
Qed.
