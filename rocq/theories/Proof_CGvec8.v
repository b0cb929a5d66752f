(* The product on S_1 with several columns. *)
From Coq Require Import ZArith List Bool Lia Reals Lra Sorting.Sorted Permutation.
From Verif Require Import Model_Base Model_Perm Model_Sn Model_Part Model_Comb Model_Tab Model_Irrep Model_Type Model_FFT Model_Vec Model_Char Model_CG Model_CGvec.
From Verif Require Import Spec_Perm Spec_Part Spec_Tab Spec_Rep Spec_Four Spec_Type Spec_FFT Spec_Vec Spec_CG Spec_CGvec.
From Verif Require Import Proof_Base Proof_Perm Proof_Sn Proof_Part Proof_PartProps Proof_Tab Proof_TabProps Proof_Sum Proof_Irrep Proof_Rep Proof_Mat Proof_IrrepProps Proof_JM Proof_Conn Proof_Restr Proof_Complete Proof_Rept Proof_CharBank Proof_Type Proof_Vec Proof_Vec2 Proof_Vec3 Proof_Vec4 Proof_Kron Proof_CG Proof_CGdown Proof_CGvec1 Proof_CGvec2 Proof_CGvec3 Proof_CGvec5 Proof_CGvec7.
Import ListNotations.
Open Scope Z_scope.

Lemma wr_one {A} (x y : A) : wr [x] 0 y = Ret [y].
Proof. reflexivity. Qed.

Lemma one_values F b P x y : io_n (sp_irr x) = 1 -> io_n (sp_irr y) = 1 -> m_n0 (sp_mat x) = 1 -> m_n0 (sp_mat y) = 1 -> 0 <= m_n1 (sp_mat x) -> 0 <= m_n1 (sp_mat y) -> m_n0 (sp_mat P) = 1 -> m_n1 (sp_mat P) = m_n1 (sp_mat x) * m_n1 (sp_mat y) ->
  exists P' o, cg_acc F 1 b [P] [] x y = Ret ([P'], o, b) /\ sp_irr P' = sp_irr P /\ m_n0 (sp_mat P') = m_n0 (sp_mat P) /\ m_n1 (sp_mat P') = m_n1 (sp_mat P) /\
    forall i j, 0 <= i < m_n1 (sp_mat x) -> 0 <= j < m_n1 (sp_mat y) -> m_at (sp_mat P') 0 (i * m_n1 (sp_mat y) + j) = (m_at (sp_mat P) 0 (i * m_n1 (sp_mat y) + j) + m_at (sp_mat x) 0 i * m_at (sp_mat y) 0 j)%R.
Proof.
  intros NX NY DX DY HX HY DP MP. rewrite cg_acc_S. cbv zeta. rewrite NX, NY. cbn [assert_ bind Z.eqb Pos.eqb]. set (I := m_n1 (sp_mat x)) in *. set (J := m_n1 (sp_mat y)) in *.
  set (inv := fun (a c : Z) (R : list spart) => exists P', R = [P'] /\ sp_irr P' = sp_irr P /\ m_n0 (sp_mat P') = 1 /\ m_n1 (sp_mat P') = I * J /\
    forall i j, 0 <= i < I -> 0 <= j < J -> m_at (sp_mat P') 0 (i * J + j) = (m_at (sp_mat P) 0 (i * J + j) + if (i <? a) || ((i =? a) && (j <? c)) then m_at (sp_mat x) 0 i * m_at (sp_mat y) 0 j else 0)%R).
  destruct (zfor_inv (fun a R => inv a 0 R) 0 I (fun i R => zfor 0 J (fun j R =>
               u <- mget (sp_mat x) 0 i ;; v <- mget (sp_mat y) 0 j ;;
               P <- rd R 0 ;; M <- minc (sp_mat P) 0 (i * J + j) (u * v)%R ;;
               wr R 0 (mkSpart (sp_irr P) M)) R) [P]) as (R & E & P' & -> & A1 & A2 & A3 & A4); [auto| | |].
  - exists P. split; [auto|]. split; [auto|]. split; [auto|]. split; [auto|]. intros i j Hi Hj. replace ((i <? 0) || ((i =? 0) && (j <? 0))) with false by lia. lra.
  - intros i R Hi HR. destruct (zfor_inv (fun c R => inv i c R) 0 J (fun j R =>
               u <- mget (sp_mat x) 0 i ;; v <- mget (sp_mat y) 0 j ;;
               P <- rd R 0 ;; M <- minc (sp_mat P) 0 (i * J + j) (u * v)%R ;;
               wr R 0 (mkSpart (sp_irr P) M)) R) as (R2 & E2 & P2 & -> & B1 & B2 & B3 & B4); [auto|auto| |].
    + clear R HR. intros j R Hj (P1 & -> & B1 & B2 & B3 & B4).
      rewrite (mget_ok (sp_mat x)), (mget_ok (sp_mat y)) by (fold I J; lia). cbn [bind]. change (rd [P1] 0) with (Ret P1). cbn [bind]. destruct (minc_ok (sp_mat P1) 0 (i * J + j) (m_at (sp_mat x) 0 i * m_at (sp_mat y) 0 j)%R ltac:(lia)) as (M & EM & M0 & M1 & MV); [nia|]. rewrite EM. cbn [bind]. rewrite wr_one. eexists. split; [reflexivity|]. eexists. split; [reflexivity|]. cbn [sp_irr sp_mat]. split; [auto|]. split; [lia|]. split; [lia|].
      intros i' j' Hi' Hj'. rewrite MV, B4 by auto. destruct (Z.eq_dec i' i) as [->|Ni].
      * destruct (Z.eq_dec j' j) as [->|Nj].
        -- rewrite !Z.eqb_refl. cbn [andb]. replace ((i <? i) || (j <? j)) with false by lia. replace ((i <? i) || (j <? j + 1)) with true by lia. lra.
        -- replace (i * J + j' =? i * J + j) with false by lia. cbn [andb]. rewrite Bool.andb_false_r. rewrite Z.eqb_refl. cbn [andb]. replace (j' <? j + 1) with (j' <? j) by lia. lra.
      * replace (i' * J + j' =? i * J + j) with false by (symmetry; apply Z.eqb_neq; nia). rewrite Bool.andb_false_r. replace (i' =? i) with false by lia. cbn [andb]. lra.
    + exists [P2]. split; [exact E2|]. exists P2. split; [auto|]. split; [auto|]. split; [auto|]. split; [auto|]. intros i' j' Hi' Hj'. rewrite B4 by auto. replace ((i' <? i + 1) || ((i' =? i + 1) && (j' <? 0))) with ((i' <? i) || ((i' =? i) && (j' <? J))) by lia. lra.
  - rewrite E. cbn [bind]. destruct (add_ok 1 [] [1] (I * J) (type_nil 1)) as (o & Eo & _); [apply decb_part; reflexivity|]. rewrite Eo. cbn [bind]. exists P', o. split; [auto|]. split; [auto|]. split; [lia|]. split; [lia|]. intros i j Hi Hj. rewrite A4 by auto. replace ((i <? I) || ((i =? I) && (j <? 0))) with true by lia. auto.
Qed.

Theorem one_vectors F x y m1 m2 qs : part_of [1] m1 x -> part_of [1] m2 y -> Forall legal_cvq qs ->
  exists aa st R, cvrun F (qs ++ [CVec [x] [y]]) cg0 = Ret (aa ++ [RVec [R]], st) /\ part_of [1] (m1 * m2) R /\
    forall i j, 0 <= i < m1 -> 0 <= j < m2 -> m_at (sp_mat R) 0 (i * m2 + j) = (m_at (sp_mat x) 0 i * m_at (sp_mat y) 0 j)%R.
Proof.
  intros A B L. assert (is_part 1 [1]) as Q1 by (apply decb_part; reflexivity). destruct (part_pgood 1 _ _ _ Q1 ltac:(lia) A) as (Gx & Kx & Mx), (part_pgood 1 _ _ _ Q1 ltac:(lia) B) as (Gy & Ky & My).
  assert (vgood 1 [x]) as G1 by (split; [intros Q [<-|[]]; auto|apply NoDup_cons; [intros []|apply NoDup_nil]]). assert (vgood 1 [y]) as G2 by (split; [intros Q [<-|[]]; auto|apply NoDup_cons; [intros []|apply NoDup_nil]]).
  destruct (cvrun_last F qs (CVec [x] [y]) cg0 ginv0 L) as (aa & b & I & E). exists aa. rewrite E. cbn [cvstep]. unfold cg_vec, cg_vec_with.
  destruct (type_unsorted 1 _ G1) as (t1 & Et1 & T1 & P1); destruct (type_unsorted 1 _ G2) as (t2 & Et2 & T2 & P2). rewrite Et1. cbn [bind]. rewrite Et2. cbn [bind]. destruct (cg_types_ok b 1 t1 t2 I ltac:(lia) T1 T2) as (T & b1 & ET & I1 & PT); pose proof PT as (TT & MT & KT). rewrite ET. cbn [bind].
  cbn [map] in P1, P2. apply Permutation_sym, Permutation_length_1_inv in P1, P2. subst t1 t2. rewrite Kx, Ky, Mx, My in *. destruct A as (A1 & A2 & A3 & A4), B as (B1 & B2 & B3 & B4).
  assert (T = [([1], m1 * m2)]) as ->.
  { apply (type_determined 1); auto.
    - intros c. rewrite KT. cbn [map fst In]. split; [intros (Pc & _); left; symmetry; apply is_part_1; auto|]. intros [<-|[]]. split; [auto|]. exists ([1], m1), ([1], m2). cbn [fst]. rewrite kz_one. split; [left; auto|]. split; [left; auto|lia].
    - intros c. destruct (pdec c [1]) as [->|Nc]. + rewrite MT by auto. rewrite !zsum_over_cons, !zsum_over_nil. cbn [fst snd]. rewrite kz_one. cbn. lia.
      + rewrite !mult_notin; auto; [intros [H|[]]; cbn in H; congruence|]. rewrite KT. intros (Pc & _). apply Nc, is_part_1. auto. }
  rewrite (sv_zero_ok 1); [|intros p [<-|[]]; cbn [fst snd]; split; [auto|nia]|lia]. cbn [bind map]. unfold cg_add. cbn [foldM]. destruct Gx as (_ & X2 & X3 & X4), Gy as (_ & Y2 & Y3 & Y4). rewrite Kx in X2, X3. rewrite Ky in Y2, Y3. rewrite d_one in *.
  replace (Z.to_nat (io_n (sp_irr x))) with 1%nat by (rewrite X2; reflexivity). destruct (one_values F b1 (zp 1 ([1], m1 * m2)) x y) as (P' & o' & E' & B5 & B6 & B7 & B8); rewrite ?X2, ?Y2, ?Mx, ?My; auto. rewrite Mx, My in B8.
  rewrite E'. cbn [bind fst snd]. exists b1, P'. split; [reflexivity|]. split.
  - apply (good_part 1); auto; [lia|nia].
  - intros i j Hi Hj. rewrite B8 by auto. cbn [zp sp_mat m_at]. lra.
Qed.

(* a part has room for one column only *)
Theorem one_part_columns F m1 m2 x y qs : part_of [1] m1 x -> part_of [1] m2 y -> 1 <= m1 -> 1 <= m2 -> m1 * m2 <> 1 -> Forall legal_cvq qs -> cvrun F (qs ++ [CPart x y]) cg0 = UB.
Proof.
  intros A B H1 H2 Ne L. assert (is_part 1 [1]) as Q1 by (apply decb_part; reflexivity). destruct (part_pgood 1 _ _ _ Q1 ltac:(lia) A) as (Gx & Kx & Mx), (part_pgood 1 _ _ _ Q1 ltac:(lia) B) as (Gy & Ky & My).
  destruct (cvrun_last F qs (CPart x y) cg0 ginv0 L) as (aa & b & I & E). rewrite E. cbn [cvstep]. unfold cg_part. fold (key x). fold (key y). rewrite Kx, Ky.
  destruct (cgt_ok 1 [1] [1] ltac:(lia) Q1 Q1) as (PT & EC). destruct (EC b I) as (b1 & E1 & I1). rewrite E1. cbn [bind]. assert (cgt [1] [1] = [([1], 1)]) as ->.
  { apply (type_determined 1); [apply PT|split; [apply SSorted_cons; constructor|apply Forall_cons; [auto|apply Forall_nil]]| |].
    - intros c. rewrite (cgt_keys 1) by (auto; lia). cbn [map fst In]. split; [intros (Pc & _); left; symmetry; apply is_part_1; auto|]. intros [<-|[]]. split; [auto|]. rewrite kz_one. lia.
    - intros c. destruct (pdec c [1]) as [->|Nc]; [rewrite (prod_type_kz 1 [1] [1]) by (auto; lia); rewrite kz_one; reflexivity|]. rewrite !mult_notin; auto; [intros [H|[]]; cbn in H; congruence|]. rewrite (cgt_keys 1) by (auto; lia). intros (Pc & _). apply Nc, is_part_1. auto. }
  rewrite (sv_zero_ok 1); [|intros p [<-|[]]; cbn [fst snd]; split; [auto|lia]|lia]. cbn [bind map]. destruct Gx as (_ & X2 & X3 & X4), Gy as (_ & Y2 & Y3 & Y4). rewrite Kx in X2, X3. rewrite Ky in Y2, Y3. rewrite d_one in *.
  replace (Z.to_nat (io_n (sp_irr x))) with 1%nat by (rewrite X2; reflexivity). rewrite cg_acc_S. cbv zeta. rewrite X2, Y2. cbn [mkirr io_n assert_ bind Z.eqb Pos.eqb]. rewrite Mx, My.
  set (P := zp 1 ([1], 1)).
  assert (forall i j P, 0 <= i < m1 -> 0 <= j < m2 -> m_n0 (sp_mat P) = 1 -> m_n1 (sp_mat P) = 1 -> (i * m2 + j = 0 -> exists P', (u <- mget (sp_mat x) 0 i ;; v <- mget (sp_mat y) 0 j ;; P0 <- rd [P] 0 ;; M <- minc (sp_mat P0) 0 (i * m2 + j) (u * v)%R ;; wr [P] 0 (mkSpart (sp_irr P0) M)) = Ret [P'] /\ m_n0 (sp_mat P') = 1 /\ m_n1 (sp_mat P') = 1) /\
    (i * m2 + j <> 0 -> (u <- mget (sp_mat x) 0 i ;; v <- mget (sp_mat y) 0 j ;; P0 <- rd [P] 0 ;; M <- minc (sp_mat P0) 0 (i * m2 + j) (u * v)%R ;; wr [P] 0 (mkSpart (sp_irr P0) M)) = UB)) as St.
  { clear P. intros i j P Hi Hj D0 D1. rewrite (mget_ok (sp_mat x)), (mget_ok (sp_mat y)) by lia. cbn [bind]. change (rd [P] 0) with (Ret P). cbn [bind]. split; intros H.
    - rewrite H. destruct (minc_ok (sp_mat P) 0 0 (m_at (sp_mat x) 0 i * m_at (sp_mat y) 0 j)%R ltac:(lia) ltac:(lia)) as (M & EM & M0 & M1 & _). rewrite EM. cbn [bind]. rewrite wr_one. eexists. split; [reflexivity|]. cbn. lia.
    - unfold minc, mget. replace (inrange (i * m2 + j) (m_n1 (sp_mat P))) with false by (unfold inrange; nia). rewrite Bool.andb_false_r. reflexivity. }
  rewrite zfor_cons by lia. cbv beta. rewrite zfor_cons by lia. destruct (proj1 (St 0 0 P ltac:(lia) ltac:(lia) eq_refl eq_refl) ltac:(lia)) as (P' & EP & D0 & D1). rewrite EP. cbn [bind]. destruct (Z.eq_dec m2 1) as [->|N2].
  - rewrite zfor_nil by lia. cbn [bind]. rewrite zfor_cons by lia. cbv beta. rewrite zfor_cons by lia. rewrite (proj2 (St (0 + 1) 0 P' ltac:(lia) ltac:(lia) D0 D1)) by lia. reflexivity.
  - rewrite zfor_cons by lia. rewrite (proj2 (St 0 (0 + 1) P' ltac:(lia) ltac:(lia) D0 D1)) by lia. reflexivity.
Qed.

Theorem several_columns_all F n l1 l2 m1 m2 x y qs : 1 <= n -> is_part n l1 -> is_part n l2 -> part_of l1 m1 x -> part_of l2 m2 y -> 1 <= m1 -> 1 <= m2 -> m1 * m2 <> 1 -> Forall legal_cvq qs -> cvrun F (qs ++ [CPart x y]) cg0 = UB.
Proof.
  intros Hn P1 P2 A B H1 H2 Ne L. destruct (Z.eq_dec n 1) as [->|N]; [|apply (several_columns F n l1 l2 m1 m2); auto; lia]. rewrite (is_part_1 _ P1) in A. rewrite (is_part_1 _ P2) in B. apply (one_part_columns F m1 m2); auto.
Qed.
