(* Learning Clebsch-Gordan factors: the batch of all products of basis vectors, restricted to the smaller group. *)
From Coq Require Import ZArith List Bool Lia Reals Lra Sorting.Sorted Permutation.
From Verif Require Import Model_Base Model_Perm Model_Sn Model_Part Model_Comb Model_Tab Model_Irrep Model_Type Model_FFT Model_Vec Model_Char Model_CG Model_CGvec Model_VecB Model_Prod Model_Learn.
From Verif Require Import Spec_Perm Spec_Part Spec_Tab Spec_Rep Spec_Four Spec_Type Spec_FFT Spec_Vec Spec_CG Spec_CGvec Spec_VecB Spec_Prod.
From Verif Require Import Proof_Base Proof_Perm Proof_Sn Proof_Part Proof_PartProps Proof_Tab Proof_TabProps Proof_Cycles Proof_Cox Proof_Yor Proof_Sum Proof_Irrep Proof_Rep Proof_Mat Proof_IrrepProps Proof_JM Proof_Conn Proof_Schur Proof_Restr Proof_UpDown Proof_Complete Proof_Char Proof_CharBank Proof_Type Proof_Rept Proof_FFTmath Proof_FFTlay Proof_FFTlay2 Proof_FFTblk Proof_FFTstep Proof_Vec Proof_Vec2 Proof_Vec3 Proof_Vec4 Proof_Vec5 Proof_Vec6 Proof_Vec7 Proof_Vec8 Proof_Kron Proof_CG Proof_CGdown Proof_CGvec1 Proof_CGvec2 Proof_CGvec3 Proof_CGvec4 Proof_CGvec5 Proof_CGvec6 Proof_CGvec7 Proof_Prod Proof_Hook Proof_Isot Proof_View Proof_VecB Proof_VecB2 Proof_Learn1 Proof_Learn2.
Import ListNotations.
Open Scope Z_scope.

(* ---- the units ---- *)

Lemma units_ok n lambda (d1 d2 : Z) (second : bool) : is_part n lambda -> 1 <= n -> 0 < d1 -> 0 < d2 -> io_d (mkirr n lambda) = (if second then d2 else d1) ->
  exists P, le_units d1 d2 second lambda = Ret P /\ pb_irr P = mkirr n lambda /\ t_n0 (pb_t P) = d1 * d2 /\ t_n1 (pb_t P) = io_d (mkirr n lambda) /\ t_n2 (pb_t P) = 1 /\
    forall b u, 0 <= b < d1 * d2 -> t_at (pb_t P) b u 0 = delta u (if second then b mod d2 else b / d2).
Proof.
  intros Pl Hn H1 H2 Hd. unfold le_units, pb_zero. destruct (mkirr_ok n lambda Pl Hn) as (E & _). rewrite E. cbn [bind]. change (1 <? 0) with false. rewrite (proj2 (Z.ltb_ge _ _)) by nia. cbn [orb bind pb_t pb_irr].
  set (ix := fun b => if second then b mod d2 else b / d2). set (T0 := mkTen (d1 * d2) (io_d (mkirr n lambda)) 1 (fun _ _ _ => 0%R)).
  destruct (zfor_inv (fun i T => tdims T0 T /\ forall b u v, t_at T b u v = if (0 <=? b) && (b <? i * d2) && (u =? ix b) && (v =? 0) then 1%R else 0%R) 0 d1
    (fun i T => zfor 0 d2 (fun j T => tset T (i * d2 + j) (if second then j else i) 0 1%R) T) T0) as (T & ET & HT & VT); [lia| | |].
  - split; [repeat split|]. intros b u v. replace ((0 <=? b) && (b <? 0 * d2)) with false by lia. reflexivity.
  - intros i T Hi (HT & VT).
    destruct (zfor_inv (fun j T => tdims T0 T /\ forall b u v, t_at T b u v = if (0 <=? b) && (b <? i * d2 + j) && (u =? ix b) && (v =? 0) then 1%R else 0%R) 0 d2
      (fun j T => tset T (i * d2 + j) (if second then j else i) 0 1%R) T) as (T' & ET & HT' & VT'); [lia|split; [auto|intros; rewrite VT, Z.add_0_r; auto]| |].
    + intros j T1 Hj ((A0 & A1 & A2) & V1). cbn [T0 t_n0 t_n1 t_n2] in A0, A1, A2. destruct (tset_ok T1 (i * d2 + j) (if second then j else i) 0 1%R) as (T2 & E2 & (B0 & B1 & B2) & V2).
      { rewrite A0. nia. } { rewrite A1, Hd. destruct second; lia. } { lia. }
      exists T2. split; [auto|]. split; [split; [|split]; cbn [T0 t_n0 t_n1 t_n2]; congruence|]. intros b u v. rewrite V2, V1.
      assert (ix (i * d2 + j) = if second then j else i) as Ei. { unfold ix. rewrite dm_div, dm_mod by lia. auto. }
      rewrite <- Ei. destruct (Z.eqb_spec b (i * d2 + j)) as [->|Nb].
      * replace (0 <=? i * d2 + j) with true by nia. replace (i * d2 + j <? i * d2 + j) with false by lia. replace (i * d2 + j <? i * d2 + (j + 1)) with true by lia. cbn [andb]. auto.
      * cbn [andb]. replace (b <? i * d2 + (j + 1)) with (b <? i * d2 + j) by lia. auto.
    + exists T'. split; [auto|]. split; [auto|]. intros. rewrite VT'. replace ((i + 1) * d2) with (i * d2 + d2) by lia. auto.
  - fold T0. rewrite ET. cbn [bind]. eexists. split; [reflexivity|]. destruct HT as (B0 & B1 & B2). cbn [T0 t_n0 t_n1 t_n2] in B0, B1, B2. cbn [pb_irr pb_t]. split; [auto|]. split; [auto|]. split; [auto|]. split; [auto|].
    intros b u Hb. rewrite VT. replace (0 <=? b) with true by lia. replace (b <? d1 * d2) with true by lia. cbn [andb]. rewrite Z.eqb_refl, andb_true_r. unfold delta. fold (ix b). destruct (Z.eqb_spec u (ix b)), (Z.eq_dec u (ix b)); auto; congruence.
Qed.

(* ---- the product of the restricted vectors ---- *)

Lemma down_ugood n l x V : is_part n l -> 2 <= n -> Forall2 (down_part n l 1 x) (corners l) V -> ugood (n - 1) V /\ map key V = belows l.
Proof.
  intros Pl Hn FV. assert (map key V = belows l) as K. { unfold belows. clear - FV. induction FV as [|r Q cs V (E & _) F IH]; cbn [map]; auto. rewrite IH. f_equal. unfold key at 1. rewrite E. reflexivity. }
  split; [|auto]. destruct (belows_spec n l Pl ltac:(lia)) as (Nb & Sb). assert (forall Q, In Q V -> pgood (n - 1) Q /\ m_n1 (sp_mat Q) = 1) as H.
  { intros Q HQ. destruct (Forall2_in_r _ _ _ _ FV HQ) as (r & Hr & D1 & D2 & D3 & _). assert (key Q = prem l r) as KQ by (unfold key at 1; rewrite D1; reflexivity). split; [|auto]. unfold pgood. rewrite KQ. split; [eapply corner_part; eauto|]. split; [auto|]. split; [exact D2|lia]. }
  split; [|intros Q HQ; apply H; auto]. split; [intros Q HQ; apply H; auto|]. rewrite K. auto.
Qed.

Lemma down_same n l x V V' cs : Forall2 same_part V V' -> Forall2 (down_part n l 1 x) cs V' -> Forall2 (down_part n l 1 x) cs V.
Proof.
  intros S F. revert V S. induction F as [|r Q cs V' D F IH]; intros V S; inversion S as [|P ? V0 ? H H0]; subst; constructor; auto.
  destruct D as (D1 & D2 & D3 & D4). destruct H as (H1 & H2 & H3 & H4). split; [congruence|]. split; [congruence|]. split; [congruence|]. intros a b Ha Hb. rewrite H4 by congruence. auto.
Qed.

(* the partitions of n-1 below the product, with their multiplicities *)
Definition TTl (l1 l2 : list Z) : list (list Z * Z) := match ty_down (cgt l1 l2) with Ret t => t | _ => [] end.

Section Val.
  Variables (F : ftable) (k : nat) (l1 l2 : list Z).
  Let n := Z.of_nat k + 2.
  Hypotheses (P1 : is_part n l1) (P2 : is_part n l2).
  Let Hn : 2 <= n. Proof. unfold n. lia. Qed.

  Lemma TTl_ok : ty_down (cgt l1 l2) = Ret (TTl l1 l2) /\ type_of (n - 1) (TTl l1 l2) /\ rdown n (cgt l1 l2) (TTl l1 l2).
  Proof.
    destruct (cgt_ok n l1 l2 ltac:(lia) P1 P2) as ((Ttau & _) & _). destruct (down_rdown n (cgt l1 l2) Ttau ltac:(lia)) as (TT & ED & DT). unfold TTl. rewrite ED. split; [auto|]. split; [|auto]. apply DT.
  Qed.

  Lemma sub_one b x y V1 V2 : ginv b -> Forall2 (down_part n l1 1 x) (corners l1) V1 -> Forall2 (down_part n l2 1 y) (corners l2) V2 -> exists r b', cg_vec F b V1 V2 = Ret (r, b') /\ ginv b' /\ vec_of (TTl l1 l2) r /\
    (forall mu, is_part (n - 1) mu -> mult (TTl l1 l2) mu = WW n l1 l2 mu) /\
    forall P, In P r -> forall i j, 0 <= i < io_d (mkirr (n - 1) (key P)) -> m_at (sp_mat P) i j = SSv F k l1 l2 (col x) (col y) (key P) i j.
  Proof.
    intros I F1 F2. destruct (down_ugood n l1 x V1 P1 Hn F1) as (U1 & K1). destruct (down_ugood n l2 y V2 P2 Hn F2) as (U2 & K2).
    destruct (cg_vec_ok F (n - 1) b V1 V2 ltac:(lia) I U1 U2) as (r & b' & E & I' & t1 & t2 & TT & Et1 & Et2 & Tt1 & Tt2 & Pt1 & Pt2 & PT & VS & VP).
    assert (rdown n [(l1, 1)] t1) as D1. { apply belows_type; auto. rewrite <- K1, map_map. exact Pt1. }
    assert (rdown n [(l2, 1)] t2) as D2. { apply belows_type; auto. rewrite <- K2, map_map. exact Pt2. }
    destruct (cgt_ok n l1 l2 ltac:(lia) P1 P2) as (PTT & CG). set (tau := cgt l1 l2) in *.
    pose proof (down_tprod n _ _ tau t1 t2 TT Hn (type_one n l1 P1) (type_one n l2 P2) (prod_tprod n l1 l2 tau ltac:(lia) P1 P2 PTT) D1 D2 PT) as DT.
    destruct TTl_ok as (_ & _ & DT'). fold tau in DT'. pose proof (rdown_unique n tau _ _ DT' DT) as ET. rewrite ET.
    destruct (units_tprod (n - 1) V1 V2 t1 t2 TT Pt1 Pt2 PT) as (MT & KT).
    exists r, b'. split; [auto|]. split; [auto|]. split; [auto|]. split.
    - intros mu Pm. rewrite MT by auto. unfold WW. symmetry. eapply zsum_Forall2; [apply (Forall2_prod _ _ _ _ _ _ F1 F2)|]. intros p q Hp ((Q1 & _) & (Q2 & _)). unfold pk, hh. unfold key. rewrite Q1, Q2. reflexivity.
    - intros P HP i j Hi. rewrite (VP P HP i j Hi). set (mu := key P) in *. unfold SSv. cbv zeta. fold n. symmetry. replace (Z.to_nat (n - 1 - 1)) with k by (unfold n; lia).
      apply (colsum_Forall2 _ _ _ _ _ _ _ (Forall2_prod _ _ _ _ _ _ F1 F2)).
      + intros p q Hp ((Q1 & _) & (Q2 & _)). unfold pk, hh, key. rewrite Q1, Q2. reflexivity.
      + intros p q c' Hp ((Q1 & Q1b & Q1c & Q1d) & (Q2 & Q2b & Q2c & Q2d)) Hc'. destruct (prs_in n l1 l2 p P1 P2 Hp) as (R1 & R2 & Pp1 & Pp2). unfold gg. assert (key (fst q) = prem l1 (fst p)) as -> by (unfold key; rewrite Q1; auto). assert (key (snd q) = prem l2 (snd p)) as -> by (unfold key; rewrite Q2; auto).
        replace (n - 1) with (Z.of_nat k + 1) in Pp1, Pp2 by (unfold n; lia). apply BB_ext; auto; intros u Hu; replace (Z.of_nat k + 1) with (n - 1) in Hu by (unfold n; lia); unfold col; symmetry; [apply Q1d|apply Q2d]; auto; lia.
  Qed.

  Let D := DD k l1 l2.
  Let WM := WW n l1 l2.
  Definition TK : list (list Z) := map fst (TTl l1 l2).

  (* what sub holds for mu *)
  Definition subpart (mu : list Z) (P : partb) : Prop :=
    pb_irr P = mkirr (n - 1) mu /\ t_n0 (pb_t P) = D /\ t_n1 (pb_t P) = io_d (mkirr (n - 1) mu) /\ t_n2 (pb_t P) = WM mu /\
    forall b r c, 0 <= b < D -> 0 <= r < io_d (mkirr (n - 1) mu) -> 0 <= c < WM mu -> t_at (pb_t P) b r c = Wv F k l1 l2 mu r c b.

  Lemma sub_ok b : ginv b -> exists p1 p2 xs ys sub b', le_units (io_d (mkirr n l1)) (io_d (mkirr n l2)) false l1 = Ret p1 /\ le_units (io_d (mkirr n l1)) (io_d (mkirr n l2)) true l2 = Ret p2 /\
    vb_down p1 = Ret xs /\ vb_down p2 = Ret ys /\ cgb_vec F b xs ys = Ret (sub, b') /\ ginv b' /\ Forall2 subpart TK sub /\ (forall mu, is_part (n - 1) mu -> mult (TTl l1 l2) mu = WM mu).
  Proof.
    intros I. pose proof (dpos n l1 ltac:(lia) P1) as H1. pose proof (dpos n l2 ltac:(lia) P2) as H2. assert (0 < D) as HD by (unfold D, DD, Proof_Learn1.d1, Proof_Learn1.d2; fold n; nia).
    destruct (units_ok n l1 _ _ false P1 ltac:(lia) H1 H2 eq_refl) as (p1 & E1 & A1 & A2 & A3 & A4 & A5). destruct (units_ok n l2 _ _ true P2 ltac:(lia) H1 H2 eq_refl) as (p2 & E2 & B1 & B2 & B3 & B4 & B5).
    change (io_d (mkirr n l1) * io_d (mkirr n l2)) with D in *.
    assert (forall p l, is_part n l -> pb_irr p = mkirr n l -> t_n0 (pb_t p) = D -> t_n1 (pb_t p) = io_d (mkirr n l) -> t_n2 (pb_t p) = 1 -> exists V, vb_down p = Ret V /\ batch (n - 1) D V /\ V <> [] /\ forall b, 0 <= b < D -> Forall2 (down_part n l 1 (slice b p)) (corners l) (slices b V)) as Hd.
    { intros p l Pl C1 C2 C3 C4. assert (forall b, part_of l 1 (slice b p)) as Po. { intros c. split; [cbn [slice sp_irr]; rewrite C1; apply (proj1 (mkirr_ok n l Pl ltac:(lia)))|]. cbn [slice sp_irr sp_mat m_n0 m_n1]. rewrite C1, C3, C4. split; [auto|]. split; [auto|lia]. }
      destruct (batched_down n D p Hn) as (V & EV & SV & HV). { split; [lia|]. split; [intros Q [<-|[]]; auto|]. intros c Q Hc [<-|[]]. exists l, 1. auto. }
      assert (forall b, 0 <= b < D -> Forall2 (down_part n l 1 (slice b p)) (corners l) (slices b V)) as FV. { intros c Hc. destruct (HV c Hc) as (v & Ev & Sv). destruct (down_pure n l 1 (slice c p) Pl Hn (Po c)) as (v' & Ev' & Fv). rewrite Ev in Ev'. apply Ret_inj in Ev'. subst v'. eapply down_same; eauto. }
      exists V. split; [auto|]. split; [|split; [|auto]].
      - split; [lia|]. split; [auto|]. intros c Hc. apply one_ugood; [lia|]. apply (down_ugood n l _ _ Pl Hn (FV c Hc)).
      - intros ->. specialize (FV 0 ltac:(lia)). cbn in FV. inversion FV as [E|]. symmetry in E. revert E. apply (corners_some n); auto. lia. }
    destruct (Hd p1 l1 P1 A1 A2 A3 A4) as (xs & Ex & Bx & Nx & Fx). destruct (Hd p2 l2 P2 B1 B2 B3 B4) as (ys & Ey & By & Ny & Fy).
    destruct (bvstep_vec F (n - 1) D b xs ys ltac:(lia) I Bx By Nx Ny) as (sub & b' & Es & I' & Ss & Hs).
    exists p1, p2, xs, ys, sub, b'. split; [auto|]. split; [auto|]. split; [auto|]. split; [auto|]. split; [auto|]. split; [auto|].
    assert (forall c, 0 <= c < D -> exists r, Forall2 same_part (slices c sub) r /\ vec_of (TTl l1 l2) r /\ (forall mu, is_part (n - 1) mu -> mult (TTl l1 l2) mu = WM mu) /\
      forall P, In P r -> forall i j, 0 <= i < io_d (mkirr (n - 1) (key P)) -> m_at (sp_mat P) i j = Wv F k l1 l2 (key P) i j c) as H.
    { intros c Hc. destruct (Hs c Hc) as (r & Er & Sr). destruct (sub_one b _ _ _ _ I (Fx c Hc) (Fy c Hc)) as (r' & b2 & Er' & _ & V' & M' & Val). rewrite Er in Er'. apply Ret_inj in Er'. injection Er' as <- <-. exists r. split; [auto|]. split; [auto|]. split; [auto|].
      intros P HP i j Hi. rewrite Val by auto. unfold Wv. apply (SS_ext F k l1 l2 P1 P2); intros u Hu; unfold col; cbn [slice sp_mat m_at]; [rewrite A5 by auto|rewrite B5 by auto]; auto. }
    assert (forall mu, is_part (n - 1) mu -> mult (TTl l1 l2) mu = WM mu) as MW. { destruct (H 0 ltac:(lia)) as (r & _ & _ & M & _). auto. }
    split; [|auto]. destruct TTl_ok as (_ & TyT & _). pose proof (type_nodup (n - 1) _ TyT) as NT. pose proof (proj2 TyT) as FT.
    assert (forall c, 0 <= c < D -> Forall2 (fun p P => pb_irr P = mkirr (n - 1) (fst p) /\ t_n0 (pb_t P) = D /\ t_n1 (pb_t P) = io_d (mkirr (n - 1) (fst p)) /\ t_n2 (pb_t P) = snd p /\
      forall i j, 0 <= i < io_d (mkirr (n - 1) (fst p)) -> 0 <= j < snd p -> t_at (pb_t P) c i j = Wv F k l1 l2 (fst p) i j c) (TTl l1 l2) sub) as G.
    { intros c Hc. destruct (H c Hc) as (r & Sr & Vr & _ & Val). clear - Sr Vr Val Ss FT Hn. unfold vec_of in Vr. revert sub Sr Ss. induction Vr as [|p Q T r V1 Vr IH]; intros sub Sr Ss; destruct sub as [|P sub]; cbn [slices map] in Sr; inversion Sr as [|? ? ? ? S1 S2]; subst; constructor.
      - cbn [map] in FT. apply Forall_inv in FT. destruct (part_pgood (n - 1) (fst p) (snd p) Q FT ltac:(lia) V1) as ((_ & G2 & G3 & _) & G4 & G5). rewrite G4 in *. destruct S1 as (Q1 & Q2 & Q3 & Q4). cbn [slice sp_irr sp_mat m_n0 m_n1 m_at] in Q1, Q2, Q3, Q4.
        split; [congruence|]. split; [apply Ss; left; auto|]. split; [congruence|]. split; [congruence|]. intros i j Hi Hj. rewrite Q4 by congruence. rewrite Val by (try (left; auto; fail); rewrite G4; auto). rewrite G4. auto.
      - apply IH; auto. { cbn [map] in FT. apply Forall_inv_tail in FT. auto. } { intros Q' HQ'. apply Val. right. auto. } { intros Q' HQ'. apply Ss. right. auto. } }
    assert (forall p, In p (TTl l1 l2) -> snd p = WM (fst p)) as Hw. { intros (mu, w) Hp. cbn [fst snd]. rewrite <- MW; [symmetry; apply mult_in; auto|]. rewrite Forall_forall in FT. apply FT. apply (in_map fst) in Hp. exact Hp. }
    unfold TK. clear - G Hw HD. revert sub G. induction (TTl l1 l2) as [|p T IH]; intros sub G; cbn [map].
    - specialize (G 0 ltac:(lia)). inversion G. constructor.
    - destruct sub as [|P sub]; [specialize (G 0 ltac:(lia)); inversion G|]. constructor.
      + pose proof (G 0 ltac:(lia)) as G0. inversion G0 as [|? ? ? ? (Q1 & Q2 & Q3 & Q4 & _)]; subst. specialize (Hw p ltac:(left; auto)). split; [auto|]. split; [auto|]. split; [auto|]. split; [congruence|].
        intros c r j Hc Hr Hj. specialize (G c Hc). inversion G as [|? ? ? ? (_ & _ & _ & _ & Q5)]; subst. apply Q5; auto. congruence.
      + apply IH; [intros q Hq; apply Hw; right; auto|]. intros c Hc. specialize (G c Hc). inversion G; auto.
  Qed.
End Val.
