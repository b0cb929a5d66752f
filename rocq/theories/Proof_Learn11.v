(* Learned products need not commute with S_4. *)
From Coq Require Import ZArith List Bool Lia Reals Lra Sorting.Sorted Permutation.
From Verif Require Import Model_Base Model_Perm Model_Sn Model_Part Model_Comb Model_Tab Model_Irrep Model_Type Model_FFT Model_Vec Model_Char Model_CG Model_CGvec Model_VecB Model_Prod Model_Learn.
From Verif Require Import Spec_Perm Spec_Part Spec_Tab Spec_Rep Spec_Four Spec_Type Spec_FFT Spec_Vec Spec_CG Spec_CGvec Spec_VecB Spec_Prod Spec_Learn.
From Verif Require Import Proof_Base Proof_Perm Proof_Sn Proof_Part Proof_PartProps Proof_Tab Proof_TabProps Proof_Cycles Proof_Cox Proof_Yor Proof_Sum Proof_Irrep Proof_Rep Proof_Mat Proof_IrrepProps Proof_JM Proof_Conn Proof_Schur Proof_Restr Proof_UpDown Proof_Complete Proof_Char Proof_CharBank Proof_Type Proof_Rept Proof_FFTmath Proof_FFTlay Proof_FFTlay2 Proof_FFTblk Proof_FFTstep Proof_Vec Proof_Vec2 Proof_Vec3 Proof_Vec4 Proof_Vec5 Proof_Vec6 Proof_Vec7 Proof_Vec8 Proof_Kron Proof_CG Proof_CGdown Proof_CGvec1 Proof_CGvec2 Proof_CGvec3 Proof_CGvec4 Proof_CGvec5 Proof_CGvec6 Proof_CGvec7 Proof_Prod Proof_Hook Proof_Isot Proof_View Proof_VecB Proof_VecB2 Proof_Learn1 Proof_Learn2 Proof_Learn3 Proof_Learn4 Proof_Learn5 Proof_Learn6 Proof_Learn7 Proof_Learn8 Proof_Learn9 Proof_Learn10.
Import ListNotations.
Open Scope Z_scope.

Lemma learned_content E k l1 l2 mu x : exact E -> Z.of_nat k + 2 <= 1234567 -> is_part (Z.of_nat k + 2) l1 -> is_part (Z.of_nat k + 2) l2 -> is_part (Z.of_nat k + 2 - 1) mu -> In x (snd (E (Mr (cg_table E (S k)) k l1 l2 mu))) ->
  exists lam r, is_part (Z.of_nat k + 2) lam /\ In r (corners lam) /\ prem lam r = mu /\ x = IZR (ct lam r).
Proof.
  intros HE Hb P1 P2 Pm Hx. set (n := Z.of_nat k + 2) in *. destruct (tables_R E k HE ltac:(lia)) as (HR & HO & _). fold n in HO. set (F := cg_table E (S k)) in *. destruct (isot_product k l1 l2 P1 P2) as (e & He). fold n in He.
  destruct (U_size E F k l1 l2 P1 P2 HE HR HO mu Pm) as (_ & _ & L). fold n in L. apply (In_nth _ _ 0%R) in Hx as (i & Hi & Ex). assert (0 <= Z.of_nat i < WW n l1 l2 mu) as Hi' by (rewrite <- L; unfold zlen; lia).
  destruct (D_content F k l1 l2 P1 P2 e He HR HO mu (UU E F k l1 l2 mu) (DDv E F k l1 l2 mu) Pm) with (i := Z.of_nat i) as (lam & P & Hm & _ & Ed); [intros; apply U_cols; auto|intros; apply U_eig; auto|auto|].
  destruct (rof_ok lam mu Hm) as (R1 & R2). exists lam, (rof lam mu). split; [auto|]. split; [auto|]. split; [auto|]. rewrite <- Ed. unfold DDv. rewrite znth_nth by lia. rewrite Nat2Z.id. symmetry. exact Ex.
Qed.

Lemma content_3 n lam r lam' r' : 2 <= n <= 3 -> is_part n lam -> is_part n lam' -> In r (corners lam) -> In r' (corners lam') -> prem lam r = prem lam' r' -> ct lam r = 2 -> ct lam' r' = -2 -> False.
Proof.
  intros Hn P P' Hr Hr' Em A B.
  assert (n = 2 \/ n = 3) as [-> | ->] by lia.
  - destruct (parts_2 lam P) as [-> | ->]; vm_compute in Hr; destruct Hr as [<-|[]]; discriminate A.
  - assert (lam = [3] /\ r = 0) as (-> & ->). { destruct (parts_3 lam P) as [-> | [-> | ->]]; vm_compute in Hr; intuition (subst; try discriminate; auto). }
    assert (lam' = [1; 1; 1] /\ r' = 2) as (-> & ->). { destruct (parts_3 lam' P') as [-> | [-> | ->]]; vm_compute in Hr'; intuition (subst; try discriminate; auto). }
    discriminate Em.
Qed.
Lemma content_4 lam r : is_part 4 lam -> In r (corners lam) -> prem lam r = [1; 1; 1] -> ct lam r <> 2.
Proof. intros P Hr Em A. destruct (parts_4 lam P) as [-> | [-> | [-> | [-> | ->]]]]; vm_compute in Hr; intuition (subst; try discriminate). Qed.

Lemma flip_agree E : exact E -> agreeR 3 (cg_learned E) (cg_learned (flip E)).
Proof.
  intros HE. apply (same_below E (flip E) HE (flip_exact E HE) 2); [lia|]. intros k l1 l2 mu Hk P1 P2 Pm X. symmetry. apply flip_same. intros (A & B).
  assert (is_part (Z.of_nat k + 2 - 1) mu) as Pm' by (replace (Z.of_nat k + 2 - 1) with (Z.of_nat k + 1) by lia; auto).
  destruct (learned_content E k l1 l2 mu _ HE ltac:(lia) P1 P2 Pm' A) as (lam & r & P & Hr & E1 & E2). destruct (learned_content E k l1 l2 mu _ HE ltac:(lia) P1 P2 Pm' B) as (lam' & r' & P' & Hr' & E1' & E2').
  apply (content_3 (Z.of_nat k + 2) lam r lam' r'); auto; [lia|congruence|apply eq_IZR; auto|apply eq_IZR; auto].
Qed.

(* ---- S_4: the product of [3,1] with itself, in [2,1,1] ---- *)

Lemma rof_211 : rof [2; 1; 1] [2; 1] = 2 /\ rof [2; 1; 1] [1; 1; 1] = 0.
Proof. split; [apply (rof_prem 4 [2; 1; 1] 2); [lia|apply p211|left; reflexivity]|apply (rof_prem 4 [2; 1; 1] 0); [lia|apply p211|right; left; reflexivity]]. Qed.

Lemma Aval_211 : Aval 2 [2; 1; 1] [1; 1; 1] = 0%R.
Proof.
  unfold Aval, tau1. change (Z.of_nat 2 + 2) with 4. change (4 - 1) with 3. rewrite (proj2 rof_211). change (boff 4 [2; 1; 1] 0) with 2.
  unfold rr, rho, Phi. set (w := pword (Z.to_nat 4) (ptransp 4 3 4)). assert (w = [3]) as -> by (vm_compute; reflexivity). rewrite aw_cons. unfold aw. cbn [fold_left]. unfold TT. set (t := tb (mkirr 4 [2; 1; 1]) 2). destruct (mkirr_ok 4 [2; 1; 1] p211 ltac:(lia)) as (_ & G).
  assert (tswap 3 (3 + 1) t = tb (mkirr 4 [2; 1; 1]) 1) as -> by (vm_compute; reflexivity). unfold fcol. unfold t. rewrite !(pos_tb 4 [2; 1; 1] _ _ G) by (vm_compute; split; congruence). rewrite !delta_ne by lia. ring.
Qed.
Lemma unaligned_211 : aligned 2 [2; 1; 1] [1; 1; 1] = false.
Proof.
  unfold aligned. destruct (pdec [1; 1; 1] (mu0 [2; 1; 1])); [reflexivity|]. rewrite Aval_211. rewrite Rabs_R0. destruct (Rlt_dec (1 / 10000) 0); [lra|reflexivity].
Qed.
Lemma self_unaligned k lam : aligned k lam (mu0 lam) = false.
Proof. unfold aligned. destruct (pdec (mu0 lam) (mu0 lam)); congruence. Qed.

Lemma alg1 a b : (a * - b = -1 * (a * b))%R. Proof. ring. Qed.
Lemma Ropp_eq_mul1 a : (- a = -1 * a)%R. Proof. ring. Qed.
Lemma alg2 a b x y : (a * (a * x + b * y) = a * a * x + a * b * y)%R. Proof. ring. Qed.
Lemma alg3 r0 r1 r2 b0 b1 b2 : (r0 * b0 + (r1 * b1 + (r2 * b2 + 0)) = r0 * - b0 + (r1 * - b1 + (r2 * b2 + 0)) -> r0 * b0 + r1 * b1 = 0)%R. Proof. intros. lra. Qed.
Lemma alg4 c x y : (0 < c -> 1 * 1 * c * x + 1 * 0 * c * y = 0 -> x = 0)%R. Proof. intros. nra. Qed.
Lemma alg5 q e : (q * q = 1 -> e * e = q * e * (q * e))%R. Proof. intros H. transitivity (q * q * (e * e))%R; [rewrite H; ring|ring]. Qed.

Section S4.
  Variable E : list (list R) -> mat * list R.
  Hypothesis HE : exact E.
  Let E' := flip E.
  Let HE' : exact E' := flip_exact E HE.
  Let l := [3; 1].
  Let lam := [2; 1; 1].
  Let F := cg_table E 3.
  Let F' := cg_table E' 3.

  Lemma T4 : (rowz F 2 /\ orthN (4 - 1) F) /\ (rowz F' 2 /\ orthN (4 - 1) F') /\ agreeR 3 F F'.
  Proof.
    destruct (tables_R E 2 HE ltac:(lia)) as (A & B & _). destruct (tables_R E' 2 HE' ltac:(lia)) as (A' & B' & _). split; [split; [exact A|exact B]|]. split; [split; [exact A'|exact B']|]. apply (tables_agreeR E E' 2 HE HE' ltac:(lia)). apply (flip_agree E HE).
  Qed.
  Lemma occ_21 : occ 2 l l lam [2; 1].
  Proof. split; [apply p211|]. split; [left; reflexivity|]. change (Z.of_nat 2 + 2) with 4. unfold l, lam. rewrite kz4_211. lia. Qed.
  Lemma occ_111 : occ 2 l l lam [1; 1; 1].
  Proof. split; [apply p211|]. split; [right; left; reflexivity|]. change (Z.of_nat 2 + 2) with 4. unfold l, lam. rewrite kz4_211. lia. Qed.
  Lemma occ_31 : occ 2 l l [3; 1] [2; 1].
  Proof. split; [apply p31|]. split; [right; left; reflexivity|]. change (Z.of_nat 2 + 2) with 4. unfold l. rewrite kz4_31. lia. Qed.

  Lemma Mr4 mu : is_part 3 mu -> Mr F' 2 l l mu = Mr F 2 l l mu.
  Proof. intros Pm. destruct T4 as (_ & _ & A). symmetry. apply Mr_agreeR; [exact A|apply p31|apply p31|exact Pm]. Qed.

  Lemma eig_In lam' mu : occ 2 l l lam' mu -> In (IZR (ct lam' (rof lam' mu))) (snd (E (Mr F 2 l l mu))).
  Proof.
    intros O. destruct T4 as ((HR & HO) & _). destruct (isot_product 2 l l p31 p31) as (e & He). pose proof (occ_part 2 l l lam' mu O) as Pm.
    destruct (si_in F 2 l l p31 p31 e He HR HO (UU E F 2 l l) (DDv E F 2 l l)) with (lam := lam') (mu := mu) (a := 0) as (S1 & S2); [intros; apply (U_cols E F 2 l l p31 p31 HE HR HO); assumption|intros; apply (U_eig E F 2 l l p31 p31 HE HR HO); assumption|exact O|destruct O as (_ & _ & O); lia|].
    rewrite <- S2. set (i := si 2 l l (DDv E F 2 l l) lam' mu 0) in *. clearbody i. unfold DDv. rewrite znth_nth by lia. apply nth_In. destruct (U_size E F 2 l l p31 p31 HE HR HO mu Pm) as (_ & _ & L). unfold zlen in L. lia.
  Qed.

  Lemma flip_21 : let X := Mr F 2 l l [2; 1] in
    E' (Mr F' 2 l l [2; 1]) = (mkMat (m_n0 (fst (E X))) (m_n1 (fst (E X))) (fun c i => if Req_EM_T (nth (Z.to_nat i) (snd (E X)) 0) (-2) then - m_at (fst (E X)) c i else m_at (fst (E X)) c i)%R, snd (E X)).
  Proof.
    cbv zeta. rewrite (Mr4 [2; 1] p21). unfold E', flip. cbv zeta. pose proof (eig_In _ _ occ_31) as A. pose proof (eig_In _ _ occ_21) as B. assert (rof [3; 1] [2; 1] = 0) as R0 by (apply (rof_prem 4 [3; 1] 0); [lia|apply p31|right; left; reflexivity]). rewrite R0 in A. unfold lam in B. rewrite (proj1 rof_211) in B.
    change (ct [3; 1] 0) with 2 in A. change (ct [2; 1; 1] 2) with (-2) in B. apply has_In in A, B. rewrite A, B. reflexivity.
  Qed.
  Lemma flip_111 : E' (Mr F' 2 l l [1; 1; 1]) = E (Mr F 2 l l [1; 1; 1]).
  Proof.
    rewrite (Mr4 [1; 1; 1] p111). apply flip_same. intros (A & _). destruct (learned_content E 2 l l [1; 1; 1] _ HE ltac:(lia) p31 p31 p111 A) as (lam' & r & P & Hr & E1 & E2). apply (content_4 lam' r); auto. apply eq_IZR. auto.
  Qed.

  Lemma K211 : 0 <= 0 < kz (Z.of_nat 2 + 2) l l lam.
  Proof. change (Z.of_nat 2 + 2) with 4. unfold l, lam. rewrite kz4_211. lia. Qed.

  Lemma col_21 c : 0 <= c < WW 4 l l [2; 1] -> let j := coff 4 l l lam [2; 1] + 0 in let m := [2; 1] in cg_learned E' l l m c j = (- cg_learned E l l m c j)%R.
  Proof.
    intros Hc. cbv zeta. destruct T4 as ((HR & HO) & (HR' & HO') & _). pose proof (learned_cols E HE 2 l l p31 p31 ltac:(lia) HR HO lam [2; 1] c 0 occ_21 Hc K211) as C. pose proof (learned_cols E' HE' 2 l l p31 p31 ltac:(lia) HR' HO' lam [2; 1] c 0 occ_21 Hc K211) as C'.
    change (Z.of_nat 2 + 2) with 4 in C, C'. rewrite C, C'. change (cg_table E 3) with F. change (cg_table E' 3) with F'. assert (aligned 2 lam [2; 1] = false) as NA by exact (self_unaligned 2 lam). unfold fin. rewrite NA. unfold raw. clear C C'.
    destruct (isot_product 2 l l p31 p31) as (e & He).
    destruct (si_in F 2 l l p31 p31 e He HR HO (UU E F 2 l l) (DDv E F 2 l l)) with (lam := lam) (mu := [2; 1]) (a := 0) as (S1 & S2); [intros; apply (U_cols E F 2 l l p31 p31 HE HR HO); assumption|intros; apply (U_eig E F 2 l l p31 p31 HE HR HO); assumption|exact occ_21|exact K211|].
    assert (si 2 l l (DDv E' F' 2 l l) lam [2; 1] 0 = si 2 l l (DDv E F 2 l l) lam [2; 1] 0) as -> by (unfold si, sel, selb, DDv; rewrite flip_21; reflexivity).
    set (i := si 2 l l (DDv E F 2 l l) lam [2; 1] 0) in *. unfold UU. rewrite flip_21. cbn [fst m_at]. unfold DDv in S2. rewrite znth_nth in S2 by lia. rewrite S2. unfold lam. rewrite (proj1 rof_211). change (ct [2; 1; 1] 2) with (-2). destruct (Req_EM_T (-2) (-2)); [reflexivity|congruence].
  Qed.
  Lemma col_111 c : 0 <= c < WW 4 l l [1; 1; 1] -> cg_learned E' l l [1; 1; 1] c (coff 4 l l lam [1; 1; 1] + 0) = cg_learned E l l [1; 1; 1] c (coff 4 l l lam [1; 1; 1] + 0).
  Proof.
    intros Hc. destruct T4 as ((HR & HO) & (HR' & HO') & _). pose proof (learned_cols E HE 2 l l p31 p31 ltac:(lia) HR HO lam [1; 1; 1] c 0 occ_111 Hc K211) as C. pose proof (learned_cols E' HE' 2 l l p31 p31 ltac:(lia) HR' HO' lam [1; 1; 1] c 0 occ_111 Hc K211) as C'.
    change (Z.of_nat 2 + 2) with 4 in C, C'. rewrite C, C'. change (cg_table E 3) with F. change (cg_table E' 3) with F'. assert (aligned 2 lam [1; 1; 1] = false) as NA by exact unaligned_211. unfold fin. rewrite NA. symmetry. apply raw_same. symmetry. apply flip_111.
  Qed.

  Lemma BB_rows x y : BB (cg_learned E') 3 l l x y lam 0 0 = (- BB (cg_learned E) 3 l l x y lam 0%Z 0%Z)%R /\ BB (cg_learned E') 3 l l x y lam 1 0 = (- BB (cg_learned E) 3 l l x y lam 1%Z 0%Z)%R /\ BB (cg_learned E') 3 l l x y lam 2 0 = BB (cg_learned E) 3 l l x y lam 2 0.
  Proof.
    assert (agreeR (Z.of_nat 2 + 1) (cg_learned E) (cg_learned E')) as A by exact (flip_agree E HE).
    assert (forall a, 0 <= a < 2 -> BB (cg_learned E') 3 l l x y lam a 0 = (- BB (cg_learned E) 3 l l x y lam a 0%Z)%R) as B.
    { intros a Ha. assert (forall G, BB G 3 l l x y lam a 0 = TTv G 2 l l x y [2; 1] a (coff 4 l l lam [2; 1] + 0)) as H. { intros G. pose proof (BB_S_at G 2 l l x y lam 2 a 0 ltac:(left; reflexivity) Ha) as T. change (boff (Z.of_nat 2 + 2) lam 2 + a) with (0 + a) in T. rewrite Z.add_0_l in T. exact T. }
      rewrite !H. unfold TTv. change (Z.of_nat 2 + 2) with 4. match goal with |- _ = (- rsum ?w ?f)%R => transitivity (rsum w (fun c => (-1 * f c)%R)); [|rewrite rsum_scal; symmetry; apply Ropp_eq_mul1] end. apply rsum_ext. intros c Hc. rewrite (SS_agreeR _ (cg_learned E') 2 l l x y [2; 1] a c A p31 p31 p21). rewrite (col_21 c Hc). apply alg1. }
    split; [apply B; lia|]. split; [apply B; lia|].
    assert (forall G, BB G 3 l l x y lam 2 0 = TTv G 2 l l x y [1; 1; 1] 0 (coff 4 l l lam [1; 1; 1] + 0)) as H. { intros G. exact (BB_S_at G 2 l l x y lam 0 0 0 ltac:(right; left; reflexivity) ltac:(vm_compute; split; congruence)). }
    rewrite !H. unfold TTv. change (Z.of_nat 2 + 2) with 4. apply rsum_ext. intros c Hc. rewrite (SS_agreeR _ (cg_learned E') 2 l l x y [1; 1; 1] 0 c A p31 p31 p111). rewrite (col_111 c Hc). reflexivity.
  Qed.

  Lemma not_both : (forall p, is_perm 4 p -> equip (cg_learned E) 3 p) -> (forall p, is_perm 4 p -> equip (cg_learned E') 3 p) -> False.
  Proof.
    intros H H'.
    assert (forall p x y, is_perm 4 p -> (rr 4 lam p 2 0 * BB (cg_learned E) 3 l l x y lam 0%Z 0%Z + rr 4 lam p 2 1 * BB (cg_learned E) 3 l l x y lam 1%Z 0%Z = 0)%R) as Z0.
    { intros p x y Pp. assert (0 <= 2 < io_d (mkirr 4 lam)) as H2 by (vm_compute; split; congruence). assert (0 <= 0 < kz 4 l l lam) as K0 by exact K211.
      pose proof (H p Pp l l lam x y 2 0 p31 p31 p211 H2 K0) as A. pose proof (H' p Pp l l lam x y 2 0 p31 p31 p211 H2 K0) as A'. change (Z.of_nat 3 + 1) with 4 in A, A'. rewrite (proj2 (proj2 (BB_rows _ _))) in A'. rewrite A in A'. clear A.
      change (io_d (mkirr 4 lam)) with 3 in A'. rewrite !rsum_lsum in A'. change (zrange 0 3) with [0; 1; 2] in A'. rewrite !lsum_cons, !lsum_nil in A'. destruct (BB_rows x y) as (B0 & B1 & B2). rewrite B0, B1, B2 in A'. apply alg3 in A'. exact A'. }
    assert (forall x y, BB (cg_learned E) 3 l l x y lam 0 0 = 0%R) as Z1.
    { intros x y. pose proof (Proof_Isot.rr_orth 4 ltac:(lia) 0 (fun _ _ _ => 0%R) lam lam 2 0 2 0 p211 p211) as O0. pose proof (Proof_Isot.rr_orth 4 ltac:(lia) 0 (fun _ _ _ => 0%R) lam lam 2 0 2 1 p211 p211) as O1.
      assert (lsum (all_perms 4) (fun p => (rr 4 lam p 2 0 * (rr 4 lam p 2 0 * BB (cg_learned E) 3 l l x y lam 0%Z 0%Z + rr 4 lam p 2 1 * BB (cg_learned E) 3 l l x y lam 1%Z 0%Z))%R) = 0%R) as S by (apply lsum_0; intros p Hp; apply (all_perms_lists 4 ltac:(lia)) in Hp; rewrite (Z0 p x y Hp); apply Rmult_0_r).
      rewrite (lsum_ext _ _ (fun p => (rr 4 lam p 2 0 * rr 4 lam p 2 0 * BB (cg_learned E) 3 l l x y lam 0%Z 0%Z + rr 4 lam p 2 0 * rr 4 lam p 2 1 * BB (cg_learned E) 3 l l x y lam 1%Z 0%Z)%R)) in S by (intros; apply alg2). rewrite lsum_plus, !lsum_scal_r in S.
      rewrite O0, O1 in S by (vm_compute; split; congruence). destruct (list_eq_dec Z.eq_dec lam lam) as [_|]; [|congruence]. rewrite !delta_refl, delta_ne in S by lia. pose proof (dimR_pos 4 lam p211 ltac:(lia)) as DP. pose proof (fact_pos 4) as FP. set (B0 := BB (cg_learned E) 3 l l x y lam 0 0) in *.
      assert (0 < IZR (zfact 4) / dimR 4 lam)%R as CP by (apply Rdiv_lt_0_compat; auto). apply (alg4 _ _ _ CP S). }
    destruct T4 as ((HR & HO) & _). destruct (isot_product 2 l l p31 p31) as (e & He).
    set (Q0 := Qm F 2 l l e (UU E F 2 l l) (DDv E F 2 l l) lam (mu0 lam) 0 0).
    assert (forall b, 0 <= b < DD 2 l l -> (Q0 * e lam 0%Z 0%Z b = 0)%R) as Q.
    { intros b Hb. pose proof (once_learned E 2 l l e lam (mu0 lam) b HE ltac:(lia) p31 p31 He HR HO occ_21 kz4_211 (or_introl eq_refl) Hb) as OR. assert (boff (Z.of_nat 2 + 2) lam (rof lam (mu0 lam)) = 0) as B0 by (change (mu0 lam) with [2; 1]; unfold lam; rewrite (proj1 rof_211); reflexivity). rewrite B0 in OR. unfold Q0. change (Z.of_nat 2 + 2) with 4 in OR. change (cg_table E (S 2)) with F in OR. rewrite <- OR.
      pose proof (BB_S_at (cg_learned E) 2 l l (fun u => delta u (b / io_d (mkirr 4 l))) (fun u => delta u (b mod io_d (mkirr 4 l))) lam 2 0 0 ltac:(left; reflexivity) ltac:(vm_compute; split; congruence)) as T. change (boff (Z.of_nat 2 + 2) lam 2 + 0) with 0 in T. rewrite Z1 in T. rewrite T. unfold TTv. change (Z.of_nat 2 + 2) with 4. change (prem lam 2) with (mu0 lam). apply rsum_ext. intros c Hc. apply Rmult_eq_compat_r.
      symmetry. apply (SS_agree (cg_learned E) F); [apply agree_sym; exact (table_agree E 3)|exact p31|exact p31]. }
    pose proof (Q_cols F 2 l l p31 p31 e He HR HO (UU E F 2 l l) (DDv E F 2 l l)) as QC. specialize (QC ltac:(intros; apply (U_cols E F 2 l l p31 p31 HE HR HO); assumption) ltac:(intros; apply (U_eig E F 2 l l p31 p31 HE HR HO); assumption) lam (mu0 lam) 0 0 occ_21 K211 K211).
    change (Z.of_nat 2 + 2) with 4 in QC. unfold l at 1 2, lam at 1 in QC. rewrite kz4_211, rsum_1, delta_refl in QC. change (Q0 * Q0 = 1)%R in QC.
    destruct He as (_ & EO & _). assert (0 <= 0 < io_d (mkirr 4 lam)) as H0 by (vm_compute; split; congruence). pose proof (EO lam 0 0 lam 0 0 p211 p211 H0 H0 K211 K211) as N. destruct (list_eq_dec Z.eq_dec lam lam) as [_|]; [|congruence]. rewrite !delta_refl in N.
    assert (rsum (DD 2 l l) (fun b => (e lam 0%Z 0%Z b * e lam 0%Z 0%Z b)%R) = 0%R) as N0.
    { rewrite (rsum_ext _ _ (fun b => 0%R)); [apply rsum_zero; reflexivity|]. intros b Hb. rewrite (alg5 Q0 _ QC), (Q b Hb). apply Rmult_0_r. }
    change (rsum (DD 2 l l) (fun b => (e lam 0%Z 0%Z b * e lam 0%Z 0%Z b)%R) = (1 * 1)%R) in N. rewrite N0 in N. clear - N. lra.
  Qed.
End S4.

Lemma flip_breaks E : exact E -> ~ (products_commute (cg_learned E) 4 (is_perm 4) /\ products_commute (cg_learned (flip E)) 4 (is_perm 4)).
Proof.
  intros HE (C & C'). apply (not_both E HE); intros p Hp; [exact (equip_of _ 4 _ p ltac:(lia) C Hp Hp)|exact (equip_of _ 4 _ p ltac:(lia) C' Hp Hp)].
Qed.

Lemma some_break : exists E, exact E /\ ~ products_commute (cg_learned E) 4 (is_perm 4).
Proof.
  destruct exact_exists as (E & HE). pose proof (flip_breaks E HE) as B. destruct (Classical_Prop.classic (products_commute (cg_learned E) 4 (is_perm 4))) as [C|C].
  - exists (flip E). split; [apply flip_exact; auto|]. intros C'. apply B. auto.
  - exists E. auto.
Qed.

Lemma equip_1 F p : is_perm 1 p -> equip F 0 p.
Proof.
  intros Hp. unfold equip. cbv zeta. change (Z.of_nat 0 + 1) with 1. intros l1 l2 lam x y i j P1 P2 Pl Hi Hj. apply is_part_1 in P1, P2, Pl. subst. assert (io_d (mkirr 1 [1]) = 1) as D1 by reflexivity. rewrite D1 in *. assert (i = 0) as -> by lia. rewrite rsum_1. assert (is_part 1 [1]) as P1 by (apply decb_part; reflexivity).
  assert (rr 1 [1] p 0 0 = 1%R) as R1. { assert (p = pid 1) as ->. { pose proof (is_perm_img 1 p 1 Hp ltac:(lia)) as I. apply (perm_ext 1); [apply is_perm_len; auto|apply is_perm_len; apply is_perm_pid; lia|]. intros k Hk. assert (k = 1) as -> by lia. rewrite img_pid by lia. lia. } rewrite (rr_id 1) by (auto; lia). apply delta_refl. }
  rewrite R1. cbn [BB]. unfold mv. rewrite D1, !rsum_1, R1. ring.
Qed.

Lemma commute_upto_3 E n : exact E -> 1 <= n <= 3 -> products_commute (cg_learned E) n (is_perm n).
Proof.
  intros HE Hn. assert (n = 1 \/ n = 2 \/ n = 3) as [-> | [-> | ->]] by lia; [|apply commute_of; [lia|]; intros p Hp; split; [auto|apply equip_2; auto]|apply commute_3; auto].
  apply commute_of; [lia|]. intros p Hp. split; [auto|apply equip_1; auto].
Qed.

Lemma flip_statement E : exact E -> exists E', exact E' /\ (forall X, snd (E' X) = snd (E X)) /\
  (forall X j, (forall c, m_at (fst (E' X)) c j = m_at (fst (E X)) c j) \/ (forall c, m_at (fst (E' X)) c j = - m_at (fst (E X)) c j)%R) /\
  ~ (products_commute (cg_learned E) 4 (is_perm 4) /\ products_commute (cg_learned E') 4 (is_perm 4)).
Proof.
  intros HE. exists (flip E). split; [apply flip_exact; auto|]. split; [|split; [|apply flip_breaks; auto]]; intros X; unfold flip; cbv zeta; destruct (has 2 (snd (E X)) && has (-2) (snd (E X))); [reflexivity|reflexivity| |left; reflexivity].
  intros j. cbn [fst m_at]. destruct (Req_EM_T (nth (Z.to_nat j) (snd (E X)) 0%R) (-2)); [right|left]; reflexivity.
Qed.
