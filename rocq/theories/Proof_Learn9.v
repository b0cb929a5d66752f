(* Learned products commute with S_3. *)
From Coq Require Import ZArith List Bool Lia Reals Lra Sorting.Sorted Permutation.
From Verif Require Import Model_Base Model_Perm Model_Sn Model_Part Model_Comb Model_Tab Model_Irrep Model_Type Model_FFT Model_Vec Model_Char Model_CG Model_CGvec Model_VecB Model_Prod Model_Learn.
From Verif Require Import Spec_Perm Spec_Part Spec_Tab Spec_Rep Spec_Four Spec_Type Spec_FFT Spec_Vec Spec_CG Spec_CGvec Spec_VecB Spec_Prod Spec_Learn.
From Verif Require Import Proof_Base Proof_Perm Proof_Sn Proof_Part Proof_PartProps Proof_Tab Proof_TabProps Proof_Cycles Proof_Cox Proof_Yor Proof_Sum Proof_Irrep Proof_Rep Proof_Mat Proof_IrrepProps Proof_JM Proof_Conn Proof_Schur Proof_Restr Proof_UpDown Proof_Complete Proof_Char Proof_CharBank Proof_Type Proof_Rept Proof_FFTmath Proof_FFTlay Proof_FFTlay2 Proof_FFTblk Proof_FFTstep Proof_Vec Proof_Vec2 Proof_Vec3 Proof_Vec4 Proof_Vec5 Proof_Vec6 Proof_Vec7 Proof_Vec8 Proof_Kron Proof_CG Proof_CGdown Proof_CGvec1 Proof_CGvec2 Proof_CGvec3 Proof_CGvec4 Proof_CGvec5 Proof_CGvec6 Proof_CGvec7 Proof_Prod Proof_Hook Proof_Isot Proof_View Proof_VecB Proof_VecB2 Proof_Learn1 Proof_Learn2 Proof_Learn3 Proof_Learn4 Proof_Learn5 Proof_Learn6 Proof_Learn7 Proof_Learn8.
Import ListNotations.
Open Scope Z_scope.

Lemma rows_equi F k l1 l2 lam c (Y : Z -> Z -> R) : let n := Z.of_nat k + 1 in let e1 := io_d (mkirr n l1) in let e2 := io_d (mkirr n l2) in is_part n l1 -> is_part n l2 ->
  (forall q r b, is_perm n q -> 0 <= r < io_d (mkirr n lam) -> 0 <= b < e1 * e2 -> rsum (e1 * e2) (fun b' => (Y r b' * (rr n l1 q (b' / e2) (b / e2) * rr n l2 q (b' mod e2) (b mod e2)))%R) = rsum (io_d (mkirr n lam)) (fun s => (rr n lam q r s * Y s b)%R)) ->
  (forall r b, 0 <= r < io_d (mkirr n lam) -> 0 <= b < e1 * e2 -> BB F k l1 l2 (fun u => delta u (b / e2)) (fun u => delta u (b mod e2)) lam r c = Y r b) ->
  forall p x y r, is_perm n p -> 0 <= r < io_d (mkirr n lam) -> BB F k l1 l2 (mv n l1 p x) (mv n l2 p y) lam r c = rsum (io_d (mkirr n lam)) (fun s => (rr n lam p r s * BB F k l1 l2 x y lam s c)%R).
Proof.
  intros n e1 e2 P1 P2 Y1 Y2 p x y r Pp Hr. assert (0 < e1) as D1 by (apply dpos; auto; unfold n; lia). assert (0 < e2) as D2 by (apply dpos; auto; unfold n; lia).
  assert (forall r x y, 0 <= r < io_d (mkirr n lam) -> BB F k l1 l2 x y lam r c = rsum (e1 * e2) (fun b => (Y r b * (x (b / e2)%Z * y (b mod e2)%Z))%R)) as EX.
  { intros r0 x0 y0 Hr0. rewrite (bilinear_expand e1 e2 (fun x y => BB F k l1 l2 x y lam r0 c)); [apply rsum_ext; intros b Hb; rewrite Y2 by auto; reflexivity|lia|auto|intros; apply BB_lin1|intros; apply BB_lin2|intros; apply BB_ext; auto]. }
  rewrite EX by auto. rewrite (rsum_ext (io_d (mkirr n lam)) _ (fun s => (rr n lam p r s * rsum (e1 * e2) (fun b => (Y s b * (x (b / e2)%Z * y (b mod e2)%Z))%R))%R)) by (intros s Hs; rewrite EX by auto; reflexivity).
  transitivity (rsum (e1 * e2) (fun b' => rsum (e1 * e2) (fun b => (Y r b' * (rr n l1 p (b' / e2) (b / e2) * rr n l2 p (b' mod e2) (b mod e2)) * (x (b / e2)%Z * y (b mod e2)%Z))%R))).
  - apply rsum_ext. intros b' Hb'. unfold mv. fold e1 e2. rewrite (rsum_prod e1 e2) by (auto; lia). rewrite <- rsum_scal_r, <- rsum_scal. apply rsum_ext. intros i Hi. rewrite <- !rsum_scal. apply rsum_ext. intros j Hj. rewrite dm_div, dm_mod by lia. ring.
  - rewrite rsum_swap. rewrite (rsum_ext (io_d (mkirr n lam)) _ (fun s => rsum (e1 * e2) (fun b => (rr n lam p r s * Y s b * (x (b / e2)%Z * y (b mod e2)%Z))%R))) by (intros; rewrite <- rsum_scal; apply rsum_ext; intros; ring).
    rewrite (rsum_swap (io_d (mkirr n lam))). apply rsum_ext. intros b Hb. rewrite !rsum_scal_r. rewrite Y1 by auto. auto.
Qed.

Lemma e_equi k l1 l2 e (g : Z -> R) : let n := Z.of_nat k + 2 in is_part n l1 -> is_part n l2 -> isotypic n (DD k l1 l2) (KK k l1 l2) (kz n l1 l2) e -> forall lam q r b, is_part n lam -> is_perm n q -> 0 <= r < io_d (mkirr n lam) -> 0 <= b < DD k l1 l2 ->
  rsum (DD k l1 l2) (fun b' => (rsum (kz n l1 l2 lam) (fun x => (g x * e lam r x b')%R) * KK k l1 l2 q b' b)%R) = rsum (io_d (mkirr n lam)) (fun s => (rr n lam q r s * rsum (kz n l1 l2 lam) (fun x => (g x * e lam s x b)%R))%R).
Proof.
  intros n P1 P2 He lam q r b P Hq Hr Hb. pose proof He as (E & _). pose proof (is_perm_pinv _ _ Hq) as Hi. set (kk := kz n l1 l2 lam) in *.
  rewrite (rsum_ext (DD k l1 l2) _ (fun b' => rsum kk (fun x => (g x * (KK k l1 l2 (pinv q) b b' * e lam r x b'))%R))).
  - rewrite rsum_swap. rewrite (rsum_ext kk _ (fun x => rsum (io_d (mkirr n lam)) (fun s => (rr n lam q r s * (g x * e lam s x b))%R))).
    + rewrite rsum_swap. apply rsum_ext. intros s Hs. rewrite rsum_scal. auto.
    + intros x Hx. rewrite rsum_scal, E by auto. rewrite <- rsum_scal. apply rsum_ext. intros s Hs. rewrite (rr_inv n) by (auto; unfold n; lia). ring.
  - intros b' Hb'. rewrite <- rsum_scal_r. apply rsum_ext. intros x Hx. destruct (mkirr_ok n l1 P1 ltac:(unfold n; lia)) as (_ & G1). destruct (mkirr_ok n l2 P2 ltac:(unfold n; lia)) as (_ & G2).
    assert (KK k l1 l2 (pinv q) b b' = KK k l1 l2 q b' b) as -> by (apply (kr_inv n l1 l2 _ _ G1 G2); auto). ring.
Qed.

Lemma once_learned E k l1 l2 e lam mu b : exact E -> let n := Z.of_nat k + 2 in let F := cg_table E (S k) in n <= 1234567 -> is_part n l1 -> is_part n l2 -> isotypic n (DD k l1 l2) (KK k l1 l2) (kz n l1 l2) e -> rowz F k -> orthN (n - 1) F ->
  occ k l1 l2 lam mu -> kz n l1 l2 lam = 1 -> mu = mu0 lam \/ aligned k lam mu = true -> 0 <= b < DD k l1 l2 ->
  rsum (WW n l1 l2 mu) (fun c => (Wv F k l1 l2 mu 0 c b * cg_learned E l1 l2 mu c (coff n l1 l2 lam mu + 0)%Z)%R) = (Qm F k l1 l2 e (UU E F k l1 l2) (DDv E F k l1 l2) lam (mu0 lam) 0 0 * e lam (boff n lam (rof lam mu)) 0%Z b)%R.
Proof.
  intros HE n F Hbig P1 P2 He HR HO O K1 A Hb.
  pose proof (once_row F k l1 l2 e (UU E F k l1 l2) (DDv E F k l1 l2) lam mu b P1 P2 He HR HO) as OR. fold n in OR. rewrite <- OR; try assumption; [|intros; apply U_cols; assumption|intros; apply U_eig; assumption].
  apply rsum_ext. intros c Hc. f_equal. apply (learned_cols E HE k l1 l2 P1 P2 Hbig HR HO lam mu c 0 O Hc). fold n. lia.
Qed.

(* ---- S_3 ---- *)

Lemma Aval_21 : let v := Aval 1 [2; 1] [1; 1] in (v * v = 3 / 4)%R.
Proof.
  cbv zeta.   unfold Aval, tau1. change (Z.of_nat 1 + 2) with 3. change (3 - 1) with 2. assert (boff 3 [2; 1] (rof [2; 1] [1; 1]) = 1) as ->. { assert (rof [2; 1] [1; 1] = 0) as -> by (apply (rof_prem 3 [2; 1] 0); [lia|apply p21|right; left; reflexivity]). reflexivity. }
  unfold rr, rho, Phi. set (w := pword (Z.to_nat 3) (ptransp 3 2 3)). assert (w = [2]) as -> by (vm_compute; reflexivity). rewrite aw_cons. unfold aw. cbn [fold_left fold_right rev app]. unfold TT. set (t := tb (mkirr 3 [2; 1]) 1). assert (del 2 t = 2) as -> by (vm_compute; reflexivity). destruct (mkirr_ok 3 [2; 1] p21 ltac:(lia)) as (_ & G).
  assert (tswap 2 (2 + 1) t = tb (mkirr 3 [2; 1]) 0) as -> by (vm_compute; reflexivity). unfold fcol. unfold t. rewrite !(pos_tb 3 [2; 1] _ _ G) by (vm_compute; split; congruence). rewrite delta_refl, delta_ne by lia. unfold Sd. replace (1 - / IZR (2 * 2))%R with (3 / 4)%R by (change (2 * 2) with 4; field). rewrite Rmult_0_r, Rplus_0_l, Rmult_1_r. apply sqrt_sqrt. lra.
Qed.

Lemma aligned_3 lam mu : is_part 3 lam -> In mu (belows lam) -> mu = mu0 lam \/ aligned 1 lam mu = true.
Proof.
  intros P Hm. destruct (parts_3 lam P) as [-> | [-> | ->]].
  - left. destruct Hm as [<-|[]]. reflexivity.
  - change (belows [2; 1]) with [[2]; [1; 1]] in Hm. destruct Hm as [<-|[<-|[]]]; [left; reflexivity|right]. unfold aligned. change (mu0 [2; 1]) with [2]. destruct (pdec [1; 1] [2]); [discriminate|]. destruct (Rlt_dec (1 / 10000) (Rabs (Aval 1 [2; 1] [1; 1]))) as [|N]; [auto|]. exfalso. apply N. pose proof Aval_21 as A. cbv zeta in A. set (v := Aval 1 [2; 1] [1; 1]) in *. clearbody v. unfold Rabs. destruct (Rcase_abs v); nra.
  - left. destruct Hm as [<-|[]]. reflexivity.
Qed.

Lemma equip_3 E p : exact E -> is_perm 3 p -> equip (cg_learned E) 2 p.
Proof.
  intros HE Hp. unfold equip. cbv zeta. change (Z.of_nat 2 + 1) with 3. intros l1 l2 lam x y i j P1 P2 Pl Hi Hj. assert (kz 3 l1 l2 lam = 1) as K1 by (pose proof (kz3_le l1 l2 lam P1 P2 Pl); lia). assert (j = 0) as -> by lia. clear Hj.
  destruct (levels E HE 1 ltac:(lia)) as (LR & LO). pose proof (table_agree E 2) as A. change (Z.of_nat 2) with 2 in A. change (Z.of_nat 1 + 1) with 2 in LO. set (F := cg_table E 2) in *.
  assert (rowz F 1) as HR by (apply (rowz_agree (cg_learned E)); [apply agree_sym; auto|auto]). assert (orthN (3 - 1) F) as HO by (apply (orthN_agree (cg_learned E)); [apply agree_sym; auto|auto]).
  destruct (isot_product 1 l1 l2 P1 P2) as (e & He). change (Z.of_nat 1 + 2) with 3 in He. set (U := UU E F 1 l1 l2). set (Dv := DDv E F 1 l1 l2). set (Q0 := Qm F 1 l1 l2 e U Dv lam (mu0 lam) 0 0).
  apply (rows_equi (cg_learned E) 2 l1 l2 lam 0 (fun r b => (Q0 * e lam r 0%Z b)%R) P1 P2); auto.
  - intros q r b Hq Hr Hb. pose proof (e_equi 1 l1 l2 e (fun _ => Q0) P1 P2 He lam q r b Pl Hq Hr Hb) as H. change (Z.of_nat 1 + 2) with 3 in H. rewrite K1 in H. change (Z.of_nat 2 + 1) with 3.
    rewrite (rsum_ext (io_d (mkirr 3 lam)) _ (fun s => (rr 3 lam q r s * rsum 1 (fun x => (Q0 * e lam s x b)%R))%R)) by (intros; rewrite rsum_1; reflexivity). rewrite <- H. apply rsum_ext. intros b' _. rewrite rsum_1. reflexivity.
  - intros r b Hr Hb. change (Z.of_nat 2 + 1) with 3 in *. destruct (boff_find 3 lam r Pl ltac:(lia) Hr) as (r0 & a & Hr0 & Ha & ->). pose proof (corner_part 3 lam r0 Pl Hr0) as Pm. change (3 - 1) with 2 in Ha, Pm. rewrite d_2 in Ha by auto. assert (a = 0) as -> by lia.
    pose proof (BB_S_at (cg_learned E) 1 l1 l2 (fun u => delta u (b / io_d (mkirr 3 l2))) (fun u => delta u (b mod io_d (mkirr 3 l2))) lam r0 0 0 Hr0) as T. unfold hrow in T. change (Z.of_nat 1 + 2) with 3 in T. rewrite T by (change (3 - 1) with 2; rewrite d_2 by auto; lia). clear T.
    set (mu := prem lam r0) in *. assert (rof lam mu = r0) as Er by (apply (rof_prem 3); auto; lia). assert (In mu (belows lam)) as Hm by (apply in_map; auto). assert (occ 1 l1 l2 lam mu) as O by (split; [auto|split; [auto|change (Z.of_nat 1 + 2) with 3; lia]]).
    pose proof (once_learned E 1 l1 l2 e lam mu b HE ltac:(lia) P1 P2 He HR HO O K1 (aligned_3 lam mu Pl Hm) Hb) as OR. change (Z.of_nat 1 + 2) with 3 in OR. rewrite Er in OR. rewrite (Z.add_0_r (boff 3 lam r0)). unfold Q0.
    transitivity (rsum (WW 3 l1 l2 mu) (fun c => (Wv F 1 l1 l2 mu 0 c b * cg_learned E l1 l2 mu c (coff 3 l1 l2 lam mu + 0)%Z)%R)); [|exact OR].
    unfold TTv. change (Z.of_nat 1 + 2) with 3. apply rsum_ext. intros c Hc. f_equal. apply (SS_agree (cg_learned E) F); [apply agree_sym; exact A|exact P1|exact P2].
Qed.

Lemma commute_3 E : exact E -> products_commute (cg_learned E) 3 (is_perm 3).
Proof. intros HE. apply commute_of; [lia|]. intros p Hp. split; [auto|]. apply equip_3; auto. Qed.
