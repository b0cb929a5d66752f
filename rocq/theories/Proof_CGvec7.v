(* The Clebsch-Gordan product of parts with several columns. *)
From Coq Require Import ZArith List Bool Lia Reals Lra Sorting.Sorted Permutation.
From Verif Require Import Model_Base Model_Perm Model_Sn Model_Part Model_Comb Model_Tab Model_Irrep Model_Type Model_FFT Model_Vec Model_Char Model_CG Model_CGvec.
From Verif Require Import Spec_Perm Spec_Part Spec_Tab Spec_Rep Spec_Four Spec_Type Spec_FFT Spec_Vec Spec_CG Spec_CGvec.
From Verif Require Import Proof_Base Proof_Perm Proof_Sn Proof_Part Proof_PartProps Proof_Tab Proof_TabProps Proof_Cycles Proof_Cox Proof_Yor Proof_Sum Proof_Irrep Proof_Rep Proof_Mat Proof_IrrepProps Proof_JM Proof_Conn Proof_Schur Proof_Restr Proof_UpDown Proof_Complete Proof_CharBank Proof_Type Proof_Rept Proof_FFTmath Proof_FFTlay Proof_FFTlay2 Proof_FFTblk Proof_FFTstep Proof_Vec Proof_Vec2 Proof_Vec3 Proof_Vec4 Proof_Vec5 Proof_Vec6 Proof_Vec7 Proof_Vec8 Proof_Kron Proof_CG Proof_CGdown Proof_CGvec1 Proof_CGvec2 Proof_CGvec3 Proof_CGvec4 Proof_CGvec5 Proof_CGvec6.
Import ListNotations.
Open Scope Z_scope.


Lemma many_down n m P : 2 <= n -> pgood n P -> m_n1 (sp_mat P) = m -> exists V, sv_down P = Ret V /\ Forall2 (down_part n (key P) m P) (corners (key P)) V /\ vgood (n - 1) V /\ (forall Q, In Q V -> m_n1 (sp_mat Q) = m) /\ map key V = belows (key P).
Proof.
  intros Hn (G1 & G2 & G3 & G4) U. destruct (down_pure n (key P) m P G1 Hn) as (V & EV & FV). { apply (good_part n); auto. lia. lia. }
  exists V. split; [auto|]. split; [auto|]. assert (map key V = belows (key P)) as K. { unfold belows. clear - FV. induction FV as [|r Q cs V (E & _) F IH]; cbn [map]; auto. rewrite IH. f_equal. unfold key at 1. rewrite E. reflexivity. }
  destruct (belows_spec n (key P) G1 ltac:(lia)) as (Nb & Sb). assert (forall Q, In Q V -> pgood (n - 1) Q /\ m_n1 (sp_mat Q) = m) as H.
  { intros Q HQ. destruct (Forall2_in_r _ _ _ _ FV HQ) as (r & Hr & D1 & D2 & D3 & _). assert (key Q = prem (key P) r) as KQ by (unfold key at 1; rewrite D1; reflexivity). split; [|auto]. unfold pgood. rewrite KQ. split; [eapply corner_part; eauto|]. split; [auto|]. split; [exact D2|lia]. }
  split; [|split; [intros Q HQ; apply H; auto|auto]]. split; [intros Q HQ; apply H; auto|]. rewrite K. auto.
Qed.

Lemma corners_some n l : 1 <= n -> is_part n l -> corners l <> [].
Proof. intros Hn P E. pose proof (tops_corners n l P) as T. rewrite E in T. pose proof (dpos n l Hn P). destruct (Z.eq_dec n 1) as [->|]; [rewrite (is_part_1 l P) in E; discriminate|]. specialize (T ltac:(lia)). cbn in T. lia. Qed.

(* the loops for n = 1 *)
Lemma one_loops F b P x y : io_n (sp_irr x) = 1 -> io_n (sp_irr y) = 1 -> m_n0 (sp_mat x) = 1 -> m_n0 (sp_mat y) = 1 -> 0 <= m_n1 (sp_mat x) -> 0 <= m_n1 (sp_mat y) -> m_n0 (sp_mat P) = 1 -> m_n1 (sp_mat P) = m_n1 (sp_mat x) * m_n1 (sp_mat y) ->
  exists P' o, cg_acc F 1 b [P] [] x y = Ret ([P'], o, b) /\ sp_irr P' = sp_irr P /\ m_n1 (sp_mat P') = m_n1 (sp_mat P).
Proof.
  intros NX NY DX DY HX HY DP MP. rewrite cg_acc_S. cbv zeta. rewrite NX, NY. cbn [assert_ bind Z.eqb Pos.eqb]. set (I := m_n1 (sp_mat x)) in *. set (J := m_n1 (sp_mat y)) in *.
  destruct (zfor_inv (fun (_ : Z) R => exists P', R = [P'] /\ sp_irr P' = sp_irr P /\ m_n0 (sp_mat P') = 1 /\ m_n1 (sp_mat P') = I * J) 0 I (fun i R => zfor 0 J (fun j R =>
               u <- mget (sp_mat x) 0 i ;; v <- mget (sp_mat y) 0 j ;;
               P <- rd R 0 ;; M <- minc (sp_mat P) 0 (i * J + j) (u * v)%R ;;
               wr R 0 (mkSpart (sp_irr P) M)) R) [P]) as (R & E & P' & -> & A1 & A2 & A3); [auto|exists P; auto| |].
  - intros i R Hi HR. apply (zfor_inv (fun (_ : Z) R => exists P', R = [P'] /\ sp_irr P' = sp_irr P /\ m_n0 (sp_mat P') = 1 /\ m_n1 (sp_mat P') = I * J)); [auto|auto|]. clear R HR. intros j R Hj (P1 & -> & B1 & B2 & B3).
    rewrite (mget_ok (sp_mat x)), (mget_ok (sp_mat y)) by (fold I J; lia). cbn [bind]. change (rd [P1] 0) with (Ret P1). cbn [bind]. destruct (minc_ok (sp_mat P1) 0 (i * J + j) (m_at (sp_mat x) 0 i * m_at (sp_mat y) 0 j)%R ltac:(lia)) as (M & EM & M0 & M1 & _); [nia|]. rewrite EM. cbn [bind]. eexists. split; [reflexivity|]. eexists. split; [reflexivity|]. cbn [sp_irr sp_mat]. split; [auto|]. split; lia.
  - rewrite E. cbn [bind]. destruct (add_ok 1 [] [1] (I * J) (type_nil 1)) as (o & Eo & _); [apply decb_part; reflexivity|]. rewrite Eo. cbn [bind]. exists P', o. split; [auto|]. split; [auto|]. lia.
Qed.

Lemma WW_2 l1 l2 : is_part 2 l1 -> is_part 2 l2 -> WW 2 l1 l2 [1] = 1.
Proof.
  intros P1 P2. destruct (parts_2 l1 P1) as [-> | ->], (parts_2 l2 P2) as [-> | ->]; unfold WW; (match goal with |- zsum_over (prs ?a ?b) _ = _ => change (prs a b) with [(hd 0 (corners a), hd 0 (corners b))] end); rewrite zsum_over_cons, zsum_over_nil; unfold pk; change (2 - 1) with 1; cbn [fst snd hd corners]; (match goal with |- kz _ ?a ?b _ + _ = _ => change a with [1]; change b with [1] end); rewrite kz_one; reflexivity.
Qed.

Lemma acc_many F k : forall n b R o x y, n = Z.of_nat k + 2 -> ginv b -> pgood n x -> pgood n y -> 1 <= m_n1 (sp_mat x) -> 1 <= m_n1 (sp_mat y) -> m_n1 (sp_mat x) * m_n1 (sp_mat y) <> 1 -> cg_acc F (S (S k)) b R o x y = UB.
Proof.
  induction k as [|k IH]; intros n b R o x y En I Gx Gy Hx Hy Ne.
  all: assert (2 <= n) as Hn by lia.
  all: destruct (many_down n _ x Hn Gx eq_refl) as (V1 & E1 & F1 & G1 & M1 & K1); destruct (many_down n _ y Hn Gy eq_refl) as (V2 & E2 & F2 & G2 & M2 & K2).
  all: pose proof Gx as (X1 & X2 & X3 & X4); pose proof Gy as (Y1 & Y2 & Y3 & Y4).
  all: destruct (type_unsorted (n - 1) V1 G1) as (t1 & Et1 & T1 & P1); destruct (type_unsorted (n - 1) V2 G2) as (t2 & Et2 & T2 & P2).
  all: destruct (cg_types_ok b (n - 1) t1 t2 I ltac:(lia) T1 T2) as (T & b1 & ET & I1 & PT); pose proof PT as (TT & MT & KT).
  all: assert (forall t V m, Permutation t (map (fun P => (key P, m_n1 (sp_mat P))) V) -> (forall Q, In Q V -> m_n1 (sp_mat Q) = m) -> forall p, In p t -> snd p = m) as Sn by (clear; intros t V m P H p Hp; apply (Permutation_in _ P) in Hp; apply in_map_iff in Hp as (Q & <- & HQ); cbn; auto).
  all: assert (forall p, In p T -> is_part (n - 1) (fst p) /\ 0 <= snd p) as Tp.
  1,3: intros (l, m) Hp; pose proof TT as (_ & FT); rewrite Forall_forall in FT; assert (is_part (n - 1) l) as Pl by (apply FT; apply (in_map fst) in Hp; exact Hp); split; [exact Pl|]; cbn [snd]; rewrite <- (mult_in T l m) by (auto; apply (type_nodup (n - 1)); auto); rewrite MT by auto;
    apply zsum_nonneg; intros p Hp1; apply zsum_nonneg; intros q Hq1; rewrite (Sn t1 V1 _ P1 M1 p Hp1), (Sn t2 V2 _ P2 M2 q Hq1);
    assert (0 <= kz (n - 1) (fst p) (fst q) l) by (apply kz_nonneg; auto; [lia|apply (proj1 (Forall_forall _ _) (proj2 T1)); apply in_map; auto|apply (proj1 (Forall_forall _ _) (proj2 T2)); apply in_map; auto]); nia.
  all: rewrite cg_acc_S; cbv zeta; fold (key x); fold (key y); rewrite X2, Y2; cbn [mkirr io_n]; rewrite Z.eqb_refl; cbn [assert_ bind]; rewrite (proj2 (Z.eqb_neq n 1)) by lia; rewrite E1; cbn [bind]; rewrite E2; cbn [bind];
    unfold cg_vec_with at 1; rewrite Et1; cbn [bind]; rewrite Et2; cbn [bind]; rewrite ET; cbn [bind]; rewrite (sv_zero_ok (n - 1)) by (auto; lia); cbn [bind].
  - change (n = 2) in En. subst n. change (2 - 1) with 1 in *.
    assert (forall V l, is_part 2 l -> map key V = belows l -> vgood 1 V -> exists Q, V = [Q] /\ key Q = [1]) as One. { clear. intros V l Pl K _. destruct (parts_2 l Pl) as [-> | ->]; (match type of K with _ = belows ?a => change (belows a) with [[1]] in K end); destruct V as [|Q [|Q' V]]; try discriminate; injection K as K; eauto. }
    destruct (One V1 (key x) X1 K1 G1) as (p & -> & Kp), (One V2 (key y) Y1 K2 G2) as (q & -> & Kq). clear One.
    cbn [map] in P1, P2. apply Permutation_sym, Permutation_length_1_inv in P1, P2. subst t1 t2. rewrite Kp, Kq in *. rewrite (M1 p (or_introl eq_refl)), (M2 q (or_introl eq_refl)) in *. set (m1 := m_n1 (sp_mat x)) in *. set (m2 := m_n1 (sp_mat y)) in *.
    assert (is_part 1 [1]) as Q1 by (apply decb_part; reflexivity).
    assert (T = [([1], m1 * m2)]) as ->.
    { apply (type_determined 1); auto.
      - intros c. rewrite KT. cbn [map fst In]. split; [intros (Pc & _); left; symmetry; apply is_part_1; auto|]. intros [<-|[]]. split; [auto|]. exists ([1], m1), ([1], m2). cbn [fst]. rewrite kz_one. split; [left; auto|]. split; [left; auto|lia].
      - intros c. destruct (pdec c [1]) as [->|Nc]. + rewrite MT by auto. rewrite !zsum_over_cons, !zsum_over_nil. cbn [fst snd]. rewrite kz_one. cbn. lia.
        + rewrite !mult_notin; auto; [intros [H|[]]; cbn in H; congruence|]. rewrite KT. intros (Pc & _). apply Nc, is_part_1. auto. }
    cbn [map zp fst snd]. unfold cg_add. cbn [foldM]. 
    destruct G1 as (G1 & _), G2 as (G2 & _). destruct (G1 p (or_introl eq_refl)) as (_ & A2 & A3 & A4), (G2 q (or_introl eq_refl)) as (_ & B2 & B3 & B4). rewrite Kp, Kq in *. rewrite d_one in *. pose proof (M1 p (or_introl eq_refl)) as M1'. pose proof (M2 q (or_introl eq_refl)) as M2'.
    destruct (one_loops F b1 (zp 1 ([1], m1 * m2)) p q) as (P' & o' & E' & B5 & B6); rewrite ?A2, ?B2, ?M1', ?M2'; auto. rewrite E'. cbn [bind]. clear E'.
    destruct (cgt_ok 2 (key x) (key y) ltac:(lia) X1 Y1) as ((Tc & Mc & Sc) & EC). destruct (EC b1 I1) as (b2 & Ec & I2). unfold cg_factors. rewrite Ec. cbn [bind]. destruct (down_rdown 2 _ Tc ltac:(lia)) as (sub & Es & Ds). rewrite Es. cbn [bind].
    pose proof (orth_mult 2 (key x) (key y) sub [1] ltac:(lia) X1 Y1 Q1 Ds) as Ew. rewrite WW_2 in Ew by auto. destruct Ds as (Ts & Ks & _).
    assert (sub = [([1], 1)]) as ->.
    { apply (type_determined 1); auto.
      - intros c. split; [intros H; left; symmetry; apply is_part_1; apply Ks in H; apply H|]. intros [<-|[]]. cbn [fst]. destruct (in_dec pdec [1] (map fst sub)); [auto|]. rewrite mult_notin in Ew by auto. discriminate.
      - intros c. destruct (pdec c [1]) as [->|Nc]; [rewrite Ew; reflexivity|]. rewrite !mult_notin; auto; [intros [H|[]]; cbn in H; congruence|]. intros H. apply Nc, is_part_1. apply Ks in H. apply H. }
    cbn [map fst snd foldM]. assert (key P' = [1]) as KP by (unfold key; rewrite B5; reflexivity).
    assert (sv_index [P'] [1] = 0) as Ei. { rewrite <- KP. apply (index_split 1 [P'] [] P' []); auto. intros Q [<-|[]]. rewrite KP. auto. }
    rewrite Ei. cbn [assert_ bind Z.leb Z.compare]. change (rd [P'] 0) with (Ret P'). cbn [bind]. rewrite (proj1 (mkirr_ok 1 [1] Q1 ltac:(lia))). cbn [bind]. unfold mat_mul. cbn [m_n0]. rewrite B6. cbn [zp sp_mat m_n1 snd]. rewrite (proj2 (Z.eqb_neq (m1 * m2) 1)) by auto. reflexivity.
  - assert (V1 <> []) as N1. { intros ->. apply (corners_some n (key x) ltac:(lia) X1). unfold belows in K1. cbn [map] in K1. symmetry in K1. apply map_eq_nil in K1. auto. }
    assert (V2 <> []) as N2. { intros ->. apply (corners_some n (key y) ltac:(lia) Y1). unfold belows in K2. cbn [map] in K2. symmetry in K2. apply map_eq_nil in K2. auto. }
    destruct V1 as [|p V1]; [congruence|]. destruct V2 as [|q V2]; [congruence|]. unfold cg_add. cbn [foldM]. rewrite (IH (n - 1) b1 _ _ p q); auto.
    + lia.
    + destruct G1 as (G1 & _). apply G1. left; auto.
    + destruct G2 as (G2 & _). apply G2. left; auto.
    + rewrite (M1 p (or_introl eq_refl)). auto.
    + rewrite (M2 q (or_introl eq_refl)). auto.
    + rewrite (M1 p (or_introl eq_refl)), (M2 q (or_introl eq_refl)). auto.
Qed.

Lemma several_columns F n l1 l2 m1 m2 x y qs : 2 <= n -> is_part n l1 -> is_part n l2 -> part_of l1 m1 x -> part_of l2 m2 y -> 1 <= m1 -> 1 <= m2 -> m1 * m2 <> 1 -> Forall legal_cvq qs -> cvrun F (qs ++ [CPart x y]) cg0 = UB.
Proof.
  intros Hn P1 P2 A B H1 H2 Ne L. destruct (part_pgood n _ _ _ P1 ltac:(lia) A) as (Gx & Kx & Mx), (part_pgood n _ _ _ P2 ltac:(lia) B) as (Gy & Ky & My). destruct (cvrun_last F qs (CPart x y) cg0 ginv0 L) as (aa & b & I & E). rewrite E. cbn [cvstep]. unfold cg_part. fold (key x). fold (key y). rewrite Kx, Ky.
  destruct (cgt_ok n l1 l2 ltac:(lia) P1 P2) as (PT & EC). destruct (EC b I) as (b1 & E1 & I1). rewrite E1. cbn [bind]. pose proof PT as (TT & _). rewrite (sv_zero_ok n); [|intros (l, m) Hp|lia].
  - cbn [bind]. destruct Gx as (G1 & G2 & G3). rewrite G2. cbn [mkirr io_n]. replace (Z.to_nat n) with (S (S (Z.to_nat (n - 2)))) by lia. rewrite (acc_many F (Z.to_nat (n - 2)) n); auto; [lia|split; auto|lia|lia|congruence].
  - assert (is_part n l) as Pl by (apply (proj1 (Forall_forall _ _) (proj2 TT)); apply (in_map fst) in Hp; exact Hp). split; [exact Pl|]. cbn [snd]. rewrite <- (mult_in _ l m (type_nodup n _ TT) Hp). rewrite (prod_type_kz n l1 l2) by (auto; lia). apply kz_nonneg; auto. lia.
Qed.

(* vectors: one part with several columns in the first pair is enough *)
Lemma several_columns_vec F n x y p q qs : 2 <= n -> (forall P, In P (p :: x) -> exists l m, is_part n l /\ part_of l m P) -> (forall P, In P (q :: y) -> exists l m, is_part n l /\ part_of l m P) ->
  NoDup (map key (p :: x)) -> NoDup (map key (q :: y)) -> 1 <= m_n1 (sp_mat p) -> 1 <= m_n1 (sp_mat q) -> m_n1 (sp_mat p) * m_n1 (sp_mat q) <> 1 -> Forall legal_cvq qs -> cvrun F (qs ++ [CVec (p :: x) (q :: y)]) cg0 = UB.
Proof.
  intros Hn Hx Hy Nx Ny H1 H2 Ne L. assert (forall v, (forall P, In P v -> exists l m, is_part n l /\ part_of l m P) -> NoDup (map key v) -> vgood n v) as G. { intros v H N. split; [|auto]. intros P HP. destruct (H P HP) as (l & m & Pl & A). apply (part_pgood n l m P Pl ltac:(lia) A). }
  pose proof (G _ Hx Nx) as G1. pose proof (G _ Hy Ny) as G2. destruct (cvrun_last F qs (CVec (p :: x) (q :: y)) cg0 ginv0 L) as (aa & b & I & E). rewrite E. cbn [cvstep]. unfold cg_vec, cg_vec_with.
  destruct (type_unsorted n _ G1) as (t1 & Et1 & T1 & P1); destruct (type_unsorted n _ G2) as (t2 & Et2 & T2 & P2). rewrite Et1. cbn [bind]. rewrite Et2. cbn [bind]. destruct (cg_types_ok b n t1 t2 I ltac:(lia) T1 T2) as (T & b1 & ET & I1 & PT); pose proof PT as (TT & MT & KT). rewrite ET. cbn [bind].
  assert (forall t V, Permutation t (map (fun P => (key P, m_n1 (sp_mat P))) V) -> vgood n V -> forall p, In p t -> 0 <= snd p) as Sn by (clear; intros t V P (G & _) p Hp; apply (Permutation_in _ P) in Hp; apply in_map_iff in Hp as (Q & <- & HQ); cbn; apply G; auto).
  assert (forall p, In p T -> is_part n (fst p) /\ 0 <= snd p) as Tp.
  { intros (l, m) Hp; pose proof TT as (_ & FT); rewrite Forall_forall in FT; assert (is_part n l) as Pl by (apply FT; apply (in_map fst) in Hp; exact Hp); split; [exact Pl|]; cbn [snd]; rewrite <- (mult_in T l m) by (auto; apply (type_nodup n); auto); rewrite MT by auto.
    apply zsum_nonneg; intros p1 Hp1; apply zsum_nonneg; intros q1 Hq1. pose proof (Sn t1 _ P1 G1 p1 Hp1). pose proof (Sn t2 _ P2 G2 q1 Hq1).
    assert (0 <= kz n (fst p1) (fst q1) l) by (apply kz_nonneg; auto; [lia|apply (proj1 (Forall_forall _ _) (proj2 T1)); apply in_map; auto|apply (proj1 (Forall_forall _ _) (proj2 T2)); apply in_map; auto]). nia. }
  rewrite (sv_zero_ok n) by (auto; lia). cbn [bind]. unfold cg_add. cbn [foldM]. destruct G1 as (G1 & _), G2 as (G2 & _). pose proof (G1 p (or_introl eq_refl)) as (A1 & A2 & A3). rewrite A2. cbn [mkirr io_n]. replace (Z.to_nat n) with (S (S (Z.to_nat (n - 2)))) by lia.
  rewrite (acc_many F (Z.to_nat (n - 2)) n); auto; [lia|split; auto|apply G2; left; auto].
Qed.
