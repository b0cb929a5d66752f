(* Learned factors: every history, inner products, parts of dimension one. *)
From Coq Require ClassicalEpsilon.
From Coq Require Import ZArith List Bool Lia Reals Lra Sorting.Sorted Permutation.
From Verif Require Import Model_Base Model_Perm Model_Sn Model_Part Model_Comb Model_Tab Model_Irrep Model_Type Model_FFT Model_Vec Model_Char Model_CG Model_CGvec Model_VecB Model_Prod Model_Learn.
From Verif Require Import Spec_Perm Spec_Part Spec_Tab Spec_Rep Spec_Four Spec_Type Spec_FFT Spec_Vec Spec_CG Spec_CGvec Spec_VecB Spec_Prod Spec_Learn.
From Verif Require Import Proof_Base Proof_Perm Proof_Sn Proof_Part Proof_PartProps Proof_Tab Proof_TabProps Proof_Cycles Proof_Cox Proof_Yor Proof_Sum Proof_Irrep Proof_Rep Proof_Mat Proof_IrrepProps Proof_JM Proof_Conn Proof_Schur Proof_Restr Proof_UpDown Proof_Complete Proof_Char Proof_CharBank Proof_Type Proof_Rept Proof_FFTmath Proof_FFTlay Proof_FFTlay2 Proof_FFTblk Proof_FFTstep Proof_Vec Proof_Vec2 Proof_Vec3 Proof_Vec4 Proof_Vec5 Proof_Vec6 Proof_Vec7 Proof_Vec8 Proof_Kron Proof_CG Proof_CGdown Proof_CGvec1 Proof_CGvec2 Proof_CGvec3 Proof_CGvec4 Proof_CGvec5 Proof_CGvec6 Proof_CGvec7 Proof_Prod Proof_Hook Proof_Isot Proof_View Proof_VecB Proof_VecB2 Proof_Learn1 Proof_Learn2 Proof_Learn3 Proof_Learn4 Proof_Learn5 Proof_Learn6.
Import ListNotations.
Open Scope Z_scope.

(* ---- learning after every history ---- *)

Lemma cvrun_inv F qs : forall b aa st, ginv b -> Forall legal_cvq qs -> cvrun F qs b = Ret (aa, st) -> ginv st.
Proof.
  induction qs as [|q qs IH]; intros b aa st I L E; cbn [cvrun] in E; [apply Ret_inj in E; injection E as _ <-; auto|]. inversion L as [|? ? L1 L2]; subst. destruct (cvstep_ok F q b I L1) as (a & b1 & E1 & I1). rewrite E1 in E. cbn [bind fst snd] in E.
  destruct (cvrun F qs b1) as [(aa2, st2)| | |] eqn:E2; cbn [bind] in E; try discriminate. apply Ret_inj in E. cbn [fst snd] in E. injection E as _ <-. apply (IH b1 aa2); auto.
Qed.

Lemma prod_cgt n a b : 1 <= n -> is_part n a -> is_part n b -> exists st, cgrun [GProd a b] cg0 = Ret ([AType (cgt a b)], st).
Proof. intros Hn Pa Pb. destruct (cgt_ok n a b Hn Pa Pb) as (_ & H). destruct (H cg0 ginv0) as (b' & E & _). exists b'. cbn [cgrun cgstep]. rewrite E. reflexivity. Qed.

Lemma learn_statement E n a b qs aa st : exact E -> 2 <= n <= 1234567 -> is_part n a -> is_part n b -> Forall legal_cvq qs -> cvrun (cg_learned E) qs cg0 = Ret (aa, st) ->
  exists t st0 sub fs st', cgrun [GProd a b] cg0 = Ret ([AType t], st0) /\ ty_down t = Ret sub /\ cg_learn E (cg_table E (Z.to_nat (n - 1))) st a b = Ret (fs, st') /\
    Forall2 (fun p f => fst f = fst p /\ m_n0 (snd f) = snd p /\ m_n1 (snd f) = snd p /\ orthogonal_matrix (snd p) (m_at (snd f)) /\
      forall i j, 0 <= i < snd p -> 0 <= j < snd p -> m_at (snd f) i j = cg_learned E a b (fst p) i j) sub fs.
Proof.
  intros HE Hn Pa Pb L EQ. pose proof (cvrun_inv _ _ _ _ _ ginv0 L EQ) as I. destruct (prod_cgt n a b ltac:(lia) Pa Pb) as (st0 & E0).
  set (k := Z.to_nat (n - 2)). assert (n = Z.of_nat k + 2) as En by (unfold k; lia). replace (Z.to_nat (n - 1)) with (S k) by (unfold k; lia). clearbody k. subst n. set (F := cg_table E (S k)).
  destruct (levels E HE k ltac:(lia)) as (LR & LO). pose proof (table_agree E (S k)) as A. replace (Z.of_nat (S k)) with (Z.of_nat k + 1) in A by lia. fold F in A.
  assert (rowz F k) as HR by (apply (rowz_agree (cg_learned E)); [apply agree_sym; auto|auto]). assert (orthN (Z.of_nat k + 2 - 1) F) as HO by (replace (Z.of_nat k + 2 - 1) with (Z.of_nat k + 1) by lia; apply (orthN_agree (cg_learned E)); [apply agree_sym; auto|auto]).
  destruct (learn_ok E F k a b Pa Pb (proj2 Hn) HE HR HO st I) as (Rf & b' & EL & _ & ED & MW & V). exists (cgt a b), st0, (TTl a b), (asl Rf (TK a b)), b'. split; [auto|]. split; [auto|]. split; [auto|].
  destruct (TTl_ok k a b Pa Pb) as (_ & TO & _).
  assert (forall p, In p (TTl a b) -> snd p = WW (Z.of_nat k + 2) a b (fst p)) as Hw. { intros (mu, w) Hp. cbn [fst snd]. destruct TO as (TO1 & TO2). rewrite <- MW; [symmetry; apply mult_in; auto; apply (type_nodup (Z.of_nat k + 2 - 1)); split; auto|]. rewrite Forall_forall in TO2. apply TO2. apply (in_map fst) in Hp. exact Hp. }
  assert (Forall2 (fun p f => In p (TTl a b) /\ f = (fst p, Rf (fst p))) (TTl a b) (asl Rf (TK a b))) as G.
  { unfold TK, asl. rewrite map_map. assert (forall T, incl T (TTl a b) -> Forall2 (fun p f => In p (TTl a b) /\ f = (fst p, Rf (fst p))) T (map (fun x => (fst x, Rf (fst x))) T)) as G; [|apply G; apply incl_refl]. induction T as [|p T IH]; intros HT; constructor; [split; [apply HT; left; auto|auto]|apply IH; intros q Hq; apply HT; right; auto]. }
  eapply Forall2_mono; [|exact G]. intros p f _ (Hp & ->). cbn [fst snd]. assert (In (fst p) (TK a b)) as Hm by (apply in_map; auto). destruct (V _ Hm) as (Pm & D0 & D1 & VV). rewrite (Hw p Hp). set (mu := fst p) in *. set (w := WW (Z.of_nat k + 2) a b mu) in *.
  assert (forall i j, 0 <= i < w -> 0 <= j < w -> m_at (Rf mu) i j = cg_learned E a b mu i j) as Val.
  { intros i j Hi Hj. destruct (coff_find k a b Pa Pb mu j Pm Hj) as (lam & c & Pl & Hb & Hc & ->). assert (occ k a b lam mu) as O by (split; [auto|split; [auto|lia]]). rewrite VV by auto. symmetry. apply (learned_cols E HE k a b Pa Pb (proj2 Hn) HR HO); auto. }
  split; [auto|]. split; [auto|]. split; [auto|]. split; [|auto].
  assert (forall i j, 0 <= i < w -> 0 <= j < w -> rsum w (fun c => (m_at (Rf mu) i c * m_at (Rf mu) j c)%R) = delta i j) as Ro.
  { intros i j Hi Hj. rewrite <- (learned_orth E HE k a b Pa Pb (proj2 Hn) HR HO mu i j Pm Hi Hj). apply rsum_ext. intros c Hc. rewrite !Val by auto. reflexivity. }
  intros i j Hi Hj. split; [auto|]. apply (square_orth w (fun x y => m_at (Rf mu) x y)); auto.
Qed.

Lemma learned_inner E n x y x' y' R R' : exact E -> 1 <= n <= 1234567 -> one_columns n x -> one_columns n y -> alike x x' -> alike y y' ->
  product_is (cg_learned E) x y R -> product_is (cg_learned E) x' y' R' -> vec_dot R R' = (vec_dot x x' * vec_dot y y')%R.
Proof.
  intros HE Hn. apply inner_productN; [lia|]. destruct (levels E HE (Z.to_nat (n - 1)) ltac:(lia)) as (_ & O). replace (Z.of_nat (Z.to_nat (n - 1)) + 1) with n in O by lia. auto.
Qed.

(* ---- exact routines ---- *)

Lemma eigen_symmetric X U D : eigen_of X U D -> symmetric X.
Proof.
  intros (S & D0 & D1 & L & O & HE). set (d := zlen X) in *. split; [auto|]. fold d. intros i j Hi Hj. pose proof (square_orth d (fun x y => m_at U y x) O) as RO. cbv beta in RO.
  assert (forall a b, 0 <= a < d -> 0 <= b < d -> entry X a b = rsum d (fun c => (m_at U a c * nth (Z.to_nat c) D 0 * m_at U b c)%R)) as H.
  { intros a b Ha Hb. rewrite (rsum_ext d _ (fun c => rsum d (fun e => (entry X a e * m_at U e c * m_at U b c)%R))) by (intros c Hc; rewrite <- HE by auto; rewrite <- rsum_scal_r; reflexivity). rewrite rsum_swap.
    rewrite (rsum_pick d _ b) by (auto; intros e He Ne; rewrite (rsum_ext d _ (fun c => (entry X a e * (m_at U e c * m_at U b c))%R)) by (intros; ring); rewrite rsum_scal, RO by auto; rewrite delta_ne by auto; ring).
    rewrite (rsum_ext d _ (fun c => (entry X a b * (m_at U b c * m_at U b c))%R)) by (intros; ring). rewrite rsum_scal, RO, delta_refl by auto. ring. }
  rewrite !H by auto. apply rsum_ext. intros c Hc. ring.
Qed.
Lemma symmetric_exact E : (forall X, symmetric X -> eigen_of X (fst (E X)) (snd (E X))) -> exact E.
Proof. intros H X (U & D & HX). apply H. apply (eigen_symmetric X U D). auto. Qed.

Lemma exact_exists : exists E, exact E.
Proof.
  exists (fun X => ClassicalEpsilon.epsilon (inhabits (mkMat 0 0 (fun _ _ => 0%R), [])) (fun p => eigen_of X (fst p) (snd p))). intros X (U & D & H).
  apply (ClassicalEpsilon.epsilon_spec (inhabits (mkMat 0 0 (fun _ _ => 0%R), [])) (fun p => eigen_of X (fst p) (snd p))). exists (U, D). auto.
Qed.

(* ---- parts of dimension one ---- *)

Lemma commute_parts F n p x y x' y' R R' : 1 <= n -> is_perm n p -> one_columns n x -> one_columns n y -> sv_apply p x = Ret x' -> sv_apply p y = Ret y' -> product_is F x y R -> product_is F x' y' R' ->
  let k := Z.to_nat (n - 1) in
  exists R2, sv_apply p R = Ret R2 /\ alike R2 R' /\ Forall2 (fun P Q => (forall l1 l2 x y i j, is_part n l1 -> is_part n l2 -> 0 <= i < io_d (mkirr n (key P)) -> 0 <= j < kz n l1 l2 (key P) ->
      BB F k l1 l2 (mv n l1 p x) (mv n l2 p y) (key P) i j = rsum (io_d (mkirr n (key P))) (fun i' => (rr n (key P) p i i' * BB F k l1 l2 x y (key P) i' j)%R)) -> same_part P Q) R2 R' /\ Forall (fun P => is_part n (key P) /\ sp_irr P = mkirr n (key P)) R2.
Proof.
  intros Hn Pp X Y Ax Ay E E' k. assert (Z.of_nat k + 1 = n) as Ek by (unfold k; lia).
  pose proof X as UX. pose proof Y as UY. apply one_ugood in UX as ((GX & _) & UX), UY as ((GY & _) & UY); auto.
  destruct (apply_pure n p x Hn Pp GX) as (x2 & Ex & Fx). rewrite Ax in Ex. apply Ret_inj in Ex. subst x2. destruct (apply_pure n p y Hn Pp GY) as (y2 & Ey & Fy). rewrite Ay in Ey. apply Ret_inj in Ey. subst y2.
  pose proof (moved_alike _ _ _ _ Fx) as A. pose proof (moved_alike _ _ _ _ Fy) as B. apply (product_pr F n) in E, E'; auto; [|eapply alike_columns; eauto|eapply alike_columns; eauto].
  destruct (pr_types F n x y R x' y' R' Hn A B E E') as (T & T0 & V & V' & M & K & VP & VP'). fold k in VP, VP'.
  destruct (apply_pure n p R Hn Pp (vec_of_parts n T R Hn T0 V)) as (R2 & E2 & F2). exists R2. split; [auto|].
  pose proof (vec_of_parts n T R Hn T0 V) as GR. pose proof (Forall2_join _ _ _ _ _ F2 (vec_pair n T R R' Hn T0 V V')) as J. split; [|split].
  - eapply Forall2_mono; [|exact J]. intros P2 P' _ (HP2 & HP' & P & HP & (A1 & A2 & A3 & A4) & _ & _ & B1 & B2 & B3). split; [congruence|]. split; congruence.
  - eapply Forall2_mono; [|exact J]. intros P2 P' _ (HP2 & HP' & P & HP & (A1 & A2 & A3 & A4) & _ & _ & B1 & B2 & B3) EQ. assert (key P2 = key P) as K2 by (unfold key; congruence). rewrite K2 in EQ.
    split; [congruence|]. split; [congruence|]. split; [congruence|]. intros i j Hi Hj. rewrite A2 in Hi. rewrite A3 in Hj. rewrite A4 by auto. destruct (GR P HP) as (G1 & G2 & G3 & G4). rewrite G3 in Hi. set (lam := key P) in *. assert (key P' = lam) as KP by (unfold lam, key; congruence).
    rewrite VP' by (auto; rewrite KP; auto). rewrite KP. unfold mprod. rewrite (rsum_ext _ _ (fun c => colsum (list_prod x y) (hh n lam) (fun m j => (rr n lam p i c * gg F k lam c m j)%R) j)).
    2:{ intros c Hc. rewrite (VP P HP) by auto. rewrite colsum_scal. reflexivity. }
    rewrite <- colsum_rsum. eapply colsum_Forall2; [exact (Forall2_prod _ _ _ _ _ _ Fx Fy)| |].
    + intros (a, b) (a', b') _ (Q1 & Q2). cbn [fst snd] in *. unfold hh. cbn [fst snd]. unfold key. rewrite (proj1 Q1), (proj1 Q2). auto.
    + intros (a, b) (a', b') c Hm (Q1 & Q2) Hc. apply in_prod_iff in Hm as (Ha & Hb). cbn [fst snd] in *. destruct (GX a Ha) as (X1 & X2 & X3 & X4), (GY b Hb) as (Y1 & Y2 & Y3 & Y4). unfold gg, hh in *. cbn [fst snd] in *.
      destruct Q1 as (C1 & C2 & C3 & C4), Q2 as (D1 & D2 & D3 & D4). assert (key a' = key a) as -> by (unfold key; congruence). assert (key b' = key b) as -> by (unfold key; congruence). rewrite <- EQ by auto. apply BB_ext; rewrite ?Ek; auto; intros u Hu.
      * unfold col at 2. rewrite C4 by (rewrite ?X3, ?(UX a Ha); auto; lia). reflexivity.
      * unfold col at 2. rewrite D4 by (rewrite ?Y3, ?(UY b Hb); auto; lia). reflexivity.
  - apply Forall_forall. intros P2 HP2. destruct (Forall2_in_r _ _ _ _ F2 HP2) as (P & HP & (A1 & _)). destruct (GR P HP) as (G1 & G2 & _). assert (key P2 = key P) as -> by (unfold key; congruence). split; [auto|congruence].
Qed.

Lemma row_equi F k l1 l2 lam c : let n := Z.of_nat k + 1 in is_part n l1 -> is_part n l2 -> rowz_at F k l1 l2 lam c -> exists Yf : Z -> (Z -> R) -> (Z -> R) -> R,
  (forall x y, BB F k l1 l2 x y lam 0 c = Yf 0 x y) /\ forall p r x y, is_perm n p -> 0 <= r < io_d (mkirr n lam) -> Yf r (mv n l1 p x) (mv n l2 p y) = rsum (io_d (mkirr n lam)) (fun s => (rr n lam p r s * Yf s x y)%R).
Proof.
  intros n P1 P2 (Y & Y1 & Y2). fold n in Y1, Y2. set (e1 := io_d (mkirr n l1)) in *. set (e2 := io_d (mkirr n l2)) in *. assert (0 < e1) as D1 by (apply dpos; auto; unfold n; lia). assert (0 < e2) as D2 by (apply dpos; auto; unfold n; lia).
  exists (fun r x y => rsum (e1 * e2) (fun b => (Y r b * (x (b / e2)%Z * y (b mod e2)%Z))%R)). split.
  - intros x y. rewrite (bilinear_expand e1 e2 (fun x y => BB F k l1 l2 x y lam 0 c)); [apply rsum_ext; intros b Hb; rewrite Y2 by auto; reflexivity|lia|auto|intros; apply BB_lin1|intros; apply BB_lin2|intros; apply BB_ext; auto].
  - intros p r x y Pp Hr. cbv beta.
    transitivity (rsum (e1 * e2) (fun b' => rsum (e1 * e2) (fun b => (Y r b' * (rr n l1 p (b' / e2) (b / e2) * rr n l2 p (b' mod e2) (b mod e2)) * (x (b / e2)%Z * y (b mod e2)%Z))%R))).
    + apply rsum_ext. intros b' Hb'. unfold mv. fold e1 e2. rewrite (rsum_prod e1 e2) by (auto; lia). rewrite <- rsum_scal_r, <- rsum_scal. apply rsum_ext. intros i Hi. rewrite <- !rsum_scal. apply rsum_ext. intros j Hj. rewrite dm_div, dm_mod by lia. ring.
    + rewrite rsum_swap. rewrite (rsum_ext (io_d (mkirr n lam)) _ (fun s => rsum (e1 * e2) (fun b => (rr n lam p r s * Y s b * (x (b / e2)%Z * y (b mod e2)%Z))%R))) by (intros; rewrite <- rsum_scal; apply rsum_ext; intros; ring).
      rewrite (rsum_swap (io_d (mkirr n lam))). apply rsum_ext. intros b Hb. rewrite !rsum_scal_r. rewrite Y1 by auto. auto.
Qed.

Lemma one_rows E n x y p x' y' R R' : exact E -> 1 <= n <= 1234567 -> one_columns n x -> one_columns n y -> is_perm n p -> sv_apply p x = Ret x' -> sv_apply p y = Ret y' ->
  product_is (cg_learned E) x y R -> product_is (cg_learned E) x' y' R' -> exists R2, sv_apply p R = Ret R2 /\ alike R2 R' /\ Forall2 (fun P Q => io_d (sp_irr P) = 1 -> same_part P Q) R2 R'.
Proof.
  intros HE Hn X Y Pp Ax Ay Ep Ep'. destruct (commute_parts (cg_learned E) n p x y x' y' R R' ltac:(lia) Pp X Y Ax Ay Ep Ep') as (R2 & E2 & A2 & F2 & G2). exists R2. split; [auto|]. split; [auto|].
  rewrite Forall_forall in G2. set (k := Z.to_nat (n - 1)) in *. assert (Z.of_nat k + 1 = n) as Ek by (unfold k; lia). destruct (levels E HE k ltac:(lia)) as (LR & _).
  eapply Forall2_mono; [|exact F2]. intros P Q HP H D1. destruct (G2 P HP) as (Pl & I). rewrite I in D1. apply H. intros l1 l2 u v i j P1 P2 Hi Hj. rewrite D1 in *. assert (i = 0) as -> by lia. rewrite rsum_1.
  unfold rowz in LR. cbv zeta in LR. rewrite Ek in LR. pose proof (LR l1 l2 (key P) j P1 P2 Pl Hj) as RZ. rewrite <- Ek in P1, P2. destruct (row_equi _ _ _ _ _ _ P1 P2 RZ) as (Yf & Y1 & Y2). rewrite Ek in Y2. rewrite !Y1. rewrite Y2 by (auto; lia). rewrite D1, rsum_1. reflexivity.
Qed.
