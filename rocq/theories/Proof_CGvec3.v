(* The Clebsch-Gordan product of vectors: the recursion computes the value BB. *)
From Coq Require Import ZArith List Bool Lia Reals Lra Sorting.Sorted Permutation.
From Verif Require Import Model_Base Model_Perm Model_Sn Model_Part Model_Comb Model_Tab Model_Irrep Model_Type Model_FFT Model_Vec Model_Char Model_CG Model_CGvec.
From Verif Require Import Spec_Perm Spec_Part Spec_Tab Spec_Rep Spec_Four Spec_Type Spec_FFT Spec_Vec.
From Verif Require Import Proof_Base Proof_Perm Proof_Sn Proof_Part Proof_PartProps Proof_Tab Proof_TabProps Proof_Cycles Proof_Cox Proof_Yor Proof_Sum Proof_Irrep Proof_Rep Proof_Mat Proof_IrrepProps Proof_JM Proof_Conn Proof_Schur Proof_Restr Proof_UpDown Proof_Complete Proof_CharBank Proof_Type Proof_Rept Proof_FFTmath Proof_FFTlay Proof_FFTlay2 Proof_FFTblk Proof_FFTstep Proof_Vec Proof_Vec2 Proof_Vec3 Proof_Vec4 Proof_Vec5 Proof_Vec6 Proof_Vec8 Proof_Kron Proof_CG Proof_CGdown Proof_CGvec1 Proof_CGvec2.
Import ListNotations.
Open Scope Z_scope.

Lemma d_one : io_d (mkirr 1 [1]) = 1.
Proof. reflexivity. Qed.

Lemma kz_one : kz 1 [1] [1] [1] = 1.
Proof.
  assert (is_part 1 [1]) as P1 by (apply decb_part; reflexivity). pose proof (kron_decompose 1 ltac:(lia) [1] [1] (pid 1) P1 P1 (is_perm_pid 1 ltac:(lia))) as H. change (plist (Z.to_nat (1 - 1))) with [[1]] in H. rewrite lsum_cons, lsum_nil in H.
  rewrite (chi_id 1 ltac:(lia)) in H by auto. unfold dimR in H. rewrite d_one in H. destruct (kz_ok 1 [1] [1] [1] ltac:(lia) P1 P1 P1) as (E & _). apply eq_IZR. rewrite E. lra.
Qed.

Lemma acc_base F : acc_ok F 0.
Proof.
  intros n b R0 o0 x y En I ((X1 & X2 & X3 & _) & X5) ((Y1 & Y2 & Y3 & _) & Y5) G T Hk Rm. change (n = 1) in En. subst n. specialize (Hk eq_refl).
  pose proof (is_part_1 _ X1) as KX. pose proof (is_part_1 _ Y1) as KY. rewrite KX in *. rewrite KY in *. assert (is_part 1 [1]) as P1 by (apply decb_part; reflexivity).
  assert (forall lam, is_part 1 lam -> hh 1 lam (x, y) = 1) as HH. { intros lam Pl. apply is_part_1 in Pl. subst lam. unfold hh. cbn [fst snd]. rewrite KX, KY. apply kz_one. }
  destruct (Rm [1] P1) as (_ & Rm2). destruct Rm2 as (K & Cap). { exists (x, y). split; [left; auto|]. rewrite HH; auto. lia. }
  rewrite zsum_over_cons, zsum_over_nil, HH, Hk in Cap by auto. destruct G as (G & N).
  assert (exists P, R0 = [P] /\ key P = [1]) as (P & -> & KP). { destruct R0 as [|P [|Q R0]]; [destruct K| |]. - exists P. split; auto. apply is_part_1. apply G. left; auto. - exfalso. cbn [map] in N. inversion N as [|? ? N1 _]; subst. apply N1. left. rewrite (is_part_1 (key P)), (is_part_1 (key Q)); auto; apply G; cbn; auto. }
  destruct (G P (or_introl eq_refl)) as (_ & G2 & G3 & G4). rewrite KP in *. rewrite <- KP in Cap at 1. rewrite (vfind_in [P] P N (or_introl eq_refl)) in Cap. rewrite d_one in *.
  cbn [cg_acc]. rewrite X2, Y2. cbn [mkirr io_n io_lambda]. rewrite Z.eqb_refl. cbn [assert_ bind Z.eqb Pos.eqb]. rewrite X5, Y5.
  rewrite zfor_cons by lia. rewrite zfor_cons by lia. rewrite (mget_ok (sp_mat x)), (mget_ok (sp_mat y)) by lia. cbn [bind]. change (rd [P] 0) with (Ret P). cbn [bind]. change (0 * 1 + 0) with 0.
  destruct (minc_ok (sp_mat P) 0 0 (m_at (sp_mat x) 0 0 * m_at (sp_mat y) 0 0)%R ltac:(lia) ltac:(lia)) as (M & EM & M0 & M1 & MV). rewrite EM. cbn [bind]. change (wr [P] 0 (mkSpart (sp_irr P) M)) with (Ret [mkSpart (sp_irr P) M]). cbn [bind].
  rewrite zfor_nil by lia. cbn [bind]. rewrite zfor_nil by lia. cbn [bind]. change (1 * 1) with 1. destruct (add_ok 1 o0 [1] 1 T P1) as (o & Eo & To & _ & Mo). rewrite Eo. cbn [bind]. exists [mkSpart (sp_irr P) M], o, b.
  split; [auto|]. split; [auto|]. split; [auto|]. split. { intros lam Pl. rewrite Mo, HH by auto. rewrite (is_part_1 lam Pl). destruct (pdec [1] [1]); congruence. }
  constructor; [|constructor]. split; [auto|]. split; [auto|]. split; [auto|]. cbn [sp_mat]. intros i j Hi. rewrite KP in *. rewrite d_one in Hi. rewrite Hk, Z.sub_0_r. assert (i = 0) as -> by lia. rewrite MV. cbn [colsum]. rewrite HH by auto. unfold gg, col. cbn [BB fst snd]. rewrite Z.eqb_refl. cbn [andb].
  destruct (Z.eqb_spec j 0) as [->|Nj]; [rewrite inrange_true by lia; ring|]. replace (inrange j 1) with false by (unfold inrange; lia). ring.
Qed.

(* ---- one step ---- *)

Lemma belows_type n l t : 2 <= n -> is_part n l -> type_of (n - 1) t -> Permutation t (map (fun mu => (mu, 1)) (belows l)) -> rdown n [(l, 1)] t.
Proof.
  intros Hn Pl T Pm. assert (forall mu, In mu (map fst t) <-> In mu (belows l)) as K.
  { intros mu. split.
    - intros H. apply (Permutation_in _ (Permutation_map fst Pm)) in H. rewrite map_map in H. cbn [fst] in H. rewrite map_id in H. auto.
    - intros H. apply (Permutation_in _ (Permutation_sym (Permutation_map fst Pm))). rewrite map_map. cbn [fst]. rewrite map_id. auto. }
  destruct (belows_spec n l Pl ltac:(lia)) as (Nb & Sb). split; [auto|]. split.
  - intros mu. rewrite K. split; [intros H; split; [apply Sb; auto|]; exists l; split; [left; auto|auto]|]. intros (_ & l' & [<-|[]] & H). auto.
  - intros mu Pmu. assert (forall c, mult [(l, 1)] c = if pdec l c then 1 else 0) as M1 by (intros c; cbn [mult]; destruct (list_eq_dec Z.eq_dec l c), (pdec l c); congruence).
    rewrite (zsum_over_ext _ (mult [(l, 1)]) _ (fun c _ => M1 c)).
    destruct (in_dec pdec mu (belows l)) as [H|H].
    + assert (mult t mu = 1) as ->. { apply mult_in; [apply (type_nodup (n - 1)); auto|]. apply (Permutation_in _ (Permutation_sym Pm)). apply in_map_iff. exists mu. auto. }
      rewrite (zsum_over_sub pdec [l]); [rewrite zsum_over_cons, zsum_over_nil; destruct (pdec l l); [lia|congruence]|constructor; [intros []|constructor]|apply NoDup_filter, NoDup_plist| |].
      * intros c [<-|[]]. apply filter_In. split; [apply in_pl; auto; lia|]. apply isin_true. auto.
      * intros c _ Nc. destruct (pdec l c) as [->|]; [destruct Nc; left; auto|auto].
    + rewrite zsum_over_0.
      * rewrite <- (msum_mult t) by (apply (type_nodup (n - 1)); auto). apply msum_notin. rewrite K. auto.
      * intros c Hc. apply filter_In in Hc as (_ & Hc). apply isin_true in Hc. destruct (pdec l c) as [->|]; [contradiction|auto].
Qed.

Lemma unit_down n P : 2 <= n -> unitp n P -> exists V, sv_down P = Ret V /\ Forall2 (down_part n (key P) 1 P) (corners (key P)) V /\ ugood (n - 1) V /\ map key V = belows (key P).
Proof.
  intros Hn ((G1 & G2 & G3 & G4) & U). destruct (down_pure n (key P) 1 P G1 Hn) as (V & EV & FV). { apply (good_part n); auto. lia. lia. }
  exists V. split; [auto|]. split; [auto|]. assert (map key V = belows (key P)) as K. { unfold belows. clear - FV. induction FV as [|r Q cs V (E & _) F IH]; cbn [map]; auto. rewrite IH. f_equal. unfold key at 1. rewrite E. reflexivity. }
  split; [|auto]. destruct (belows_spec n (key P) G1 ltac:(lia)) as (Nb & Sb). assert (forall Q, In Q V -> pgood (n - 1) Q /\ m_n1 (sp_mat Q) = 1) as H.
  { intros Q HQ. destruct (Forall2_in_r _ _ _ _ FV HQ) as (r & Hr & D1 & D2 & D3 & _). assert (key Q = prem (key P) r) as KQ by (unfold key at 1; rewrite D1; reflexivity). split; [|auto]. unfold pgood. rewrite KQ. split; [eapply corner_part; eauto|]. split; [auto|]. split; [exact D2|lia]. }
  split; [|intros Q HQ; apply H; auto]. split; [intros Q HQ; apply H; auto|]. rewrite K. auto.
Qed.

(* the part of tilde for one factor *)
Definition tl (n : Z) (sub : list spart) (p : list Z * mat) : spart :=
  mkSpart (mkirr n (fst p)) (mkMat (m_n0 (sp_mat (vfind sub (fst p)))) (m_n1 (snd p)) (fun i j => acc_sum (m_n1 (sp_mat (vfind sub (fst p)))) (fun k => (m_at (sp_mat (vfind sub (fst p))) i k * m_at (snd p) k j)%R))).

Lemma tilde_ok n sub fs : vgood n sub -> 1 <= n -> (forall p, In p fs -> In (fst p) (map key sub) /\ m_n0 (snd p) = m_n1 (sp_mat (vfind sub (fst p)))) ->
  foldM (fun p st =>
     let ix := sv_index sub (fst p) in
     _ <- assert_ (0 <=? ix) ;;
     P <- rd sub ix ;;
     o <- irr_new (fst p) ;;
     M <- mat_mul (sp_mat P) (snd p) ;;
     Ret (st ++ [mkSpart o M])) fs [] = Ret (map (tl n sub) fs).
Proof.
  intros (G & N) Hn H. match goal with |- foldM ?body _ _ = _ => assert (forall acc, foldM body fs acc = Ret (acc ++ map (tl n sub) fs)) as K; [|apply (K [])] end.
  induction fs as [|p fs IH]; intros acc; [cbn; rewrite app_nil_r; auto|]. destruct (H p (or_introl eq_refl)) as (Hk & Hd). destruct (vfind_key sub _ Hk) as (Hi & EK). cbn [foldM].
  pose proof Hi as Hi'. apply in_split in Hi' as (a & b & Es). destruct (key_split sub a _ b N Es) as (Na & _).
  assert (sv_index sub (fst p) = zlen a) as ->. { rewrite <- EK. apply (index_split n sub a _ b); auto. intros Q HQ. apply G; auto. }
  cbv beta iota zeta. rewrite (proj2 (Z.leb_le 0 (zlen a)) (zlen_nonneg a)). cbn [assert_ bind]. replace (rd sub (zlen a)) with (Ret (vfind sub (fst p))) by (symmetry; rewrite Es at 1; apply rd_at). cbn [bind].
  assert (is_part n (fst p)) as Pp by (rewrite <- EK; apply G; auto). rewrite (proj1 (mkirr_ok n (fst p) Pp Hn)). cbn [bind]. unfold mat_mul at 1. rewrite (proj2 (Z.eqb_eq _ _) (eq_sym Hd)). cbn [bind].
  rewrite IH by (intros; apply H; right; auto). rewrite <- app_assoc. reflexivity.
Qed.

Lemma used_over n l1 l2 mu (a : list (list Z * Z)) : 2 <= n -> is_part (n - 1) mu -> (forall l m, In (l, m) a -> is_part n l /\ m = kz n l1 l2 l) -> columns_used a mu = zsum_over (map fst a) (lk n l1 l2 mu).
Proof.
  intros Hn Pm. induction a as [|(l, m) a IH]; intros H; [reflexivity|]. change ((l, m) :: a) with ([(l, m)] ++ a) at 1. rewrite used_app, IH by (intros; apply H; right; auto). cbn [map fst]. rewrite zsum_over_cons. f_equal.
  destruct (H l m (or_introl eq_refl)) as (Pl & ->). unfold columns_used, lk. cbn [filter fst]. rewrite (fits_inb n l mu Pl ltac:(lia) Pm). unfold inb, isin, belows. destruct (in_dec pdec mu (map (prem l) (corners l))); cbn; lia.
Qed.

Lemma zsum_filter' {A} (f : A -> bool) X (g : A -> Z) : zsum_over (filter f X) g = zsum_over X (fun x => if f x then g x else 0).
Proof. induction X as [|x X IH]; auto. cbn [filter]. rewrite zsum_over_cons. destruct (f x); rewrite ?zsum_over_cons, IH; lia. Qed.

Lemma lk_total n l1 l2 mu : 2 <= n -> is_part n l1 -> is_part n l2 -> is_part (n - 1) mu -> zsum_over (map fst (cgt l1 l2)) (lk n l1 l2 mu) = WW n l1 l2 mu.
Proof.
  intros Hn P1 P2 Pm. transitivity (zsum_over (pl n) (lk n l1 l2 mu)).
  - symmetry. destruct (cgt_ok n l1 l2 ltac:(lia) P1 P2) as ((T & _) & _). apply (zsum_over_sub pdec); [apply (type_nodup n); auto|apply NoDup_plist| |].
    + intros c Hc. apply (cgt_keys n) in Hc; auto; [|lia]. apply in_pl; [lia|apply Hc].
    + intros c Hc N. apply in_pl in Hc; [|lia]. unfold lk. destruct (isin mu (belows c)); auto. pose proof (kz_nonneg n l1 l2 c ltac:(lia) P1 P2 Hc). rewrite (cgt_keys n) in N by (auto; lia). destruct (Z.eq_dec (kz n l1 l2 c) 0); [auto|]. destruct N. split; [auto|lia].
  - unfold lk. rewrite <- (zsum_filter' (fun c => isin mu (belows c))). rewrite <- kz_restrict by auto. unfold WW, prs, pk, belows. rewrite (zsum_list_prod (corners l1) (corners l2) (fun p q => kz (n - 1) (prem l1 p) (prem l2 q) mu)). rewrite zsum_over_map. apply zsum_over_ext. intros r Hr. rewrite zsum_over_map. auto.
Qed.

Lemma cg_acc_S F fuel' b R offs x y : cg_acc F (S fuel') b R offs x y =
  (
      let lambda1 := io_lambda (sp_irr x) in
      let lambda2 := io_lambda (sp_irr y) in
      let n := io_n (sp_irr x) in
      _ <- assert_ (io_n (sp_irr y) =? n) ;;
      if n =? 1 then
        let I := m_n1 (sp_mat x) in
        let J := m_n1 (sp_mat y) in
        R <- zfor 0 I (fun i R => zfor 0 J (fun j R =>
               u <- mget (sp_mat x) 0 i ;; v <- mget (sp_mat y) 0 j ;;
               P <- rd R 0 ;; M <- minc (sp_mat P) 0 (i * J + j) (u * v)%R ;;
               wr R 0 (mkSpart (sp_irr P) M)) R) R ;;
        offs <- ty_add offs [1] (I * J) ;;
        Ret (R, offs, b)
      else
        xsub <- sv_down x ;;
        ysub <- sv_down y ;;
        r <- cg_vec_with (cg_acc F fuel') b xsub ysub ;; let '(sub, b) := r in
        r <- cg_factors F b lambda1 lambda2 ;; let '(fs, b) := r in
        tilde <- foldM (fun p st =>
                   let ix := sv_index sub (fst p) in
                   _ <- assert_ (0 <=? ix) ;;
                   P <- rd sub ix ;;
                   o <- irr_new (fst p) ;;
                   M <- mat_mul (sp_mat P) (snd p) ;;
                   Ret (st ++ [mkSpart o M])) fs [] ;;
        r <- cg_product b lambda1 lambda2 ;; let '(t, b) := r in
        r <- sv_accumulate_up R offs tilde t ;;
        Ret (fst r, snd r, b)).
Proof. reflexivity. Qed.

Lemma acc_step F k : acc_ok F k -> acc_ok F (S k).
Proof.
  intros A n b R0 o0 x y En I Ux Uy G T _ Rm. assert (2 <= n) as Hn by lia. assert (n - 1 = Z.of_nat k + 1) as En' by lia.
  destruct (unit_down n x Hn Ux) as (V1 & E1 & F1 & U1 & K1). destruct (unit_down n y Hn Uy) as (V2 & E2 & F2 & U2 & K2).
  pose proof Ux as ((X1 & X2 & X3 & X4) & X5). pose proof Uy as ((Y1 & Y2 & Y3 & Y4) & Y5). set (l1 := key x) in *. set (l2 := key y) in *.
  destruct (vec_ok F k (cg_acc F (S k)) A (n - 1) b V1 V2 En' I U1 U2 (fun _ _ _ _ _ _ => eq_refl)) as (t1 & t2 & TT & sub & b1 & Et1 & Et2 & Tt1 & Tt2 & Pt1 & Pt2 & PT & EV & I1 & VS & VP).
  assert (rdown n [(l1, 1)] t1) as D1. { apply belows_type; auto. rewrite <- K1, map_map. exact Pt1. }
  assert (rdown n [(l2, 1)] t2) as D2. { apply belows_type; auto. rewrite <- K2, map_map. exact Pt2. }
  destruct (cgt_ok n l1 l2 ltac:(lia) X1 Y1) as (PTT & CG). set (tau := cgt l1 l2) in *. pose proof PTT as (Ttau & _ & Ktau).
  pose proof (down_tprod n _ _ tau t1 t2 TT Hn (type_one n l1 X1) (type_one n l2 Y1) (prod_tprod n l1 l2 tau ltac:(lia) X1 Y1 PTT) D1 D2 PT) as DT.
  destruct (units_tprod (n - 1) V1 V2 t1 t2 TT Pt1 Pt2 PT) as (MT & KT). pose proof PT as (TyT & _). pose proof (type_nodup (n - 1) TT TyT) as NT.
  destruct (vec_good (n - 1) TT sub ltac:(lia) VS (proj2 TyT) NT) as (GS & KS & FS).
  assert (forall mu, is_part (n - 1) mu -> mult TT mu = WW n l1 l2 mu) as MW.
  { intros mu Pm. rewrite MT by auto. unfold WW. symmetry. eapply zsum_Forall2; [apply (Forall2_prod _ _ _ _ _ _ F1 F2)|]. intros p q Hp ((Q1 & _) & (Q2 & _)). unfold pk, hh. unfold key. rewrite Q1, Q2. reflexivity. }
  (* the code *)
  rewrite cg_acc_S. cbv zeta. fold (key x). fold (key y). fold l1. fold l2. rewrite X2, Y2. cbn [mkirr io_n]. rewrite Z.eqb_refl. cbn [assert_ bind]. rewrite (proj2 (Z.eqb_neq n 1)) by lia. rewrite E1. cbn [bind]. rewrite E2. cbn [bind]. rewrite EV. cbn [bind].
  destruct (CG b1 I1) as (b2 & Ecg & I2). unfold cg_factors. rewrite Ecg. cbn [bind]. destruct (down_rdown n tau Ttau ltac:(lia)) as (TT' & ED & DT'). rewrite (rdown_unique n tau TT' TT DT' DT) in ED. rewrite ED. cbn [bind].
  set (fs := map (fun p : list Z * Z => (fst p, mkMat (snd p) (snd p) (F l1 l2 (fst p)))) TT) in *.
  assert (forall p, In p fs -> In (fst p) (map key sub) /\ m_n0 (snd p) = m_n1 (sp_mat (vfind sub (fst p)))) as Hfs.
  { intros p Hp. apply in_map_iff in Hp as ((mu, m) & <- & Hp). cbn [fst snd m_n0]. rewrite KS. split; [apply (in_map fst) in Hp; exact Hp|]. destruct (FS mu m Hp) as (_ & _ & ->). auto. }
  pose proof (tilde_ok (n - 1) sub fs GS ltac:(lia) Hfs) as Etd. cbv zeta in Etd. rewrite Etd. cbn [bind]. destruct (CG b2 I2) as (b3 & Ecg3 & I3). rewrite Ecg3. cbn [bind].
  set (td := map (tl (n - 1) sub) fs) in *.
  assert (map key td = map fst TT) as Ktd. { unfold td, fs. rewrite !map_map. apply map_ext. intros p. reflexivity. }
  assert (forall mu m, In (mu, m) TT -> vfind td mu = tl (n - 1) sub (mu, mkMat m m (F l1 l2 mu))) as Ftd.
  { intros mu m H. change mu with (key (tl (n - 1) sub (mu, mkMat m m (F l1 l2 mu)))) at 1. apply vfind_in; [rewrite Ktd; auto|]. unfold td, fs. rewrite map_map. apply in_map_iff. exists (mu, m). auto. }
  assert (vgood (n - 1) td) as Gtd.
  { split; [|rewrite Ktd; auto]. intros Q HQ. unfold td, fs in HQ. rewrite map_map in HQ. apply in_map_iff in HQ as ((mu, m) & <- & H). change (key (tl (n - 1) sub (fst (mu, m), mkMat (snd (mu, m)) (snd (mu, m)) (F l1 l2 (fst (mu, m)))))) with mu. cbn [tl sp_irr sp_mat m_n0 m_n1 fst snd].
    destruct (FS mu m H) as (Hv1 & Hv2 & Hv3). destruct GS as (GS & _). destruct (GS _ Hv1) as (Q1 & Q2 & Q3 & Q4). rewrite Hv2 in *. split; [auto|]. split; [auto|]. split; [auto|]. lia. }
  assert (forall l m, In (l, m) tau -> is_part n l /\ m = kz n l1 l2 l /\ 0 <= m) as Htau.
  { intros l m H. pose proof Ttau as (_ & FT). rewrite Forall_forall in FT. assert (is_part n l) as Pl by (apply FT; apply (in_map fst) in H; exact H). split; [auto|]. assert (m = kz n l1 l2 l) as ->; [|split; [auto|apply kz_nonneg; auto; lia]]. rewrite <- (mult_in tau l m (type_nodup n tau Ttau) H). apply (prod_type_kz n l1 l2 tau l); auto. lia. }
  assert (forall mu, is_part (n - 1) mu -> columns_used tau mu = mult TT mu) as Hused.
  { intros mu Pm. rewrite (used_over n l1 l2 mu tau Hn Pm) by (intros l m H; destruct (Htau l m H) as (? & ? & _); auto). rewrite MW by auto. apply lk_total; auto. }
  destruct (accumulate_pure n tau td (map key R0) R0 o0 Ttau) as (R & o & EA & FA & To & Mo); auto.
  { intros (l, m) H. cbn [snd]. apply (Htau l m H). }
  { intros l m mu H Hmu. destruct (Htau l m H) as (Pl & _). assert (In mu (belows l)) as Hb by exact Hmu. assert (is_part (n - 1) mu) as Pm by (apply (belows_spec n l Pl ltac:(lia)); auto).
    assert (In mu (map fst TT)) as HT by (apply DT; split; [auto|]; exists l; split; [apply (in_map fst) in H; exact H|auto]). rewrite Ktd. split; [auto|]. rewrite Hused by auto. apply in_map_iff in HT as ((mu', m') & E & HT). cbn [fst] in E. subst mu'. rewrite (Ftd mu m' HT), (mult_in TT mu m' NT HT). cbn [tl sp_mat m_n1 snd]. lia. }
  { intros l m H. destruct (Htau l m H) as (Pl & Em & Hm0). destruct (Rm l Pl) as (R1 & R2). assert (hh n l (x, y) = m) as Hh by (unfold hh; cbn [fst snd]; auto). destruct R2 as (R2 & R3).
    - exists (x, y). split; [left; auto|]. rewrite Hh, Em. apply (cgt_keys n l1 l2 l ltac:(lia) X1 Y1). apply (in_map fst) in H. exact H.
    - rewrite zsum_over_cons, zsum_over_nil, Hh in R3. split; [auto|]. split; [auto|]. lia. }
  rewrite EA. cbn [bind fst snd]. exists R, o, b3. split; [auto|]. split; [auto|]. split; [auto|]. split.
  { intros lam Pl. rewrite Mo. f_equal. apply (prod_type_kz n l1 l2 tau lam); auto. lia. }
  eapply Forall2_mono; [|exact FA]. intros P P' HP (B1 & B2 & B3 & B4 & B5). split; [auto|]. split; [auto|]. split; [auto|]. intros i j Hi. destruct G as (G & _). destruct (G P HP) as (Pl & EP & N0 & N1). set (lam := key P) in *.
  cbn [colsum]. rewrite Rplus_0_r. change (hh n lam (x, y)) with (kz n l1 l2 lam). destruct (inrange (j - mult o0 lam) (kz n l1 l2 lam)) eqn:Ej.
  2:{ rewrite B5; [ring|]. intros m H. destruct (Htau lam m H) as (_ & -> & _). unfold inrange in Ej. lia. }
  apply inrange_iff in Ej. set (jj := j - mult o0 lam) in *. assert (In lam (map fst tau)) as Hl by (apply (cgt_keys n l1 l2 lam); auto; [lia|split; [auto|lia]]).
  apply in_map_iff in Hl as ((l', m) & El & Hl). cbn [fst] in El. subst l'. destruct (Htau lam m Hl) as (_ & Em & _). pose proof Hl as Hl'. apply in_split in Hl' as (ta & tb & Et).
  rewrite <- tops_corners in Hi by auto. destruct (block_find (corners lam) (hrow n lam) i (fun r _ => hrow_nonneg n lam r) Hi) as (pre & r & post & a & Ec & Ha & Ei).
  assert (boff n lam r = zsum_over pre (hrow n lam)) as Eb by (apply (boff_split n lam pre r post Ec)). assert (In r (corners lam)) as Hr by (rewrite Ec; apply in_app_iff; right; left; auto).
  replace j with (mult o0 lam + jj) by (unfold jj; lia). rewrite Ei, <- Eb. rewrite (B4 ta lam m tb r a jj Et eq_refl Hr Ha ltac:(lia)). f_equal.
  set (mu := prem lam r). assert (In mu (belows lam)) as Hmu by (apply in_map; auto). assert (is_part (n - 1) mu) as Pm by (eapply corner_part; eauto).
  assert (In mu (map fst TT)) as HT by (apply DT; split; [auto|]; exists lam; split; [apply (in_map fst) in Hl; exact Hl|auto]). apply in_map_iff in HT as ((mu', w) & E & HT). cbn [fst] in E. subst mu'. rewrite (Ftd mu w HT). cbn [tl sp_mat m_at fst snd]. rewrite acc_sum_rsum.
  destruct (FS mu w HT) as (Hv1 & Hv2 & Hv3). rewrite Hv3. assert (w = WW n l1 l2 mu) as -> by (rewrite <- MW, (mult_in TT mu w NT HT) by auto; auto).
  (* the value *)
  unfold gg. cbn [fst snd]. fold l1 l2. cbn [BB]. cbv zeta. replace (Z.of_nat k + 2) with n by lia. rewrite Eb, Ec. rewrite colsum_at; [|intros; apply hrow_nonneg|auto]. fold mu. apply rsum_ext. intros c Hc. f_equal.
  - rewrite (VP _ Hv1) by (rewrite Hv2; exact Ha). rewrite Hv2. symmetry. apply (colsum_Forall2 _ _ _ _ _ _ _ (Forall2_prod _ _ _ _ _ _ F1 F2)).
    + intros p q Hp ((Q1 & _) & (Q2 & _)). unfold pk, hh, key. rewrite Q1, Q2. reflexivity.
    + intros p q c' Hp ((Q1 & Q1b & Q1c & Q1d) & (Q2 & Q2b & Q2c & Q2d)) Hc'. destruct (prs_in n l1 l2 p X1 Y1 Hp) as (R1 & R2 & Pp1 & Pp2). unfold gg. assert (key (fst q) = prem l1 (fst p)) as -> by (unfold key; rewrite Q1; auto). assert (key (snd q) = prem l2 (snd p)) as -> by (unfold key; rewrite Q2; auto).
      rewrite En' in Pp1, Pp2. apply BB_ext; auto; intros u Hu; rewrite <- En' in Hu; unfold col; symmetry; [apply Q1d|apply Q2d]; auto; lia.
  - cbn [m_at]. f_equal. f_equal. rewrite (used_over n l1 l2 mu ta Hn Pm) by (intros l m' H; destruct (Htau l m') as (? & ? & _); [rewrite Et; apply in_app_iff; auto|auto]).
    unfold coff. fold tau. rewrite Et, map_app. cbn [map fst]. rewrite before_split; [auto|]. pose proof (type_nodup n tau Ttau) as Nt. rewrite Et, map_app in Nt. cbn [map fst] in Nt. apply NoDup_remove_2 in Nt. rewrite in_app_iff in Nt. tauto.
Qed.

Lemma acc_all F k : acc_ok F k.
Proof. induction k as [|k IH]; [apply acc_base|apply acc_step; auto]. Qed.
