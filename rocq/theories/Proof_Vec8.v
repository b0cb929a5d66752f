(* SnVec: accumulate_up. *)
From Coq Require Import ZArith List Bool Lia Reals Lra Sorting.Sorted Permutation.
From Verif Require Import Model_Base Model_Perm Model_Sn Model_Part Model_Comb Model_Tab Model_Irrep Model_Type Model_FFT Model_Vec.
From Verif Require Import Spec_Perm Spec_Part Spec_Tab Spec_Rep Spec_Four Spec_Type Spec_FFT Spec_Vec.
From Verif Require Import Proof_Base Proof_Perm Proof_Sn Proof_Part Proof_PartProps Proof_Tab Proof_TabProps Proof_Cycles Proof_Cox Proof_Yor Proof_Sum Proof_Irrep Proof_Rep Proof_Mat Proof_IrrepProps Proof_JM Proof_Conn Proof_Schur Proof_Restr Proof_UpDown Proof_Complete Proof_CharBank Proof_Type Proof_FFTmath Proof_FFTlay Proof_FFTlay2 Proof_FFTblk Proof_FFTstep Proof_Vec Proof_Vec2 Proof_Vec3 Proof_Vec4 Proof_Vec5 Proof_Vec6 Proof_Vec7.
Import ListNotations.
Open Scope Z_scope.

Lemma acc_inner n l m v so D0 co : is_part n l -> 2 <= n -> 0 <= m -> vgood (n - 1) v -> m_n0 D0 = io_d (mkirr n l) -> 0 <= co -> co + m <= m_n1 D0 -> type_of (n - 1) so ->
  (forall r, In r (corners l) -> In (prem l r) (map key v) /\ 0 <= mult so (prem l r) /\ mult so (prem l r) + m <= m_n1 (sp_mat (vfind v (prem l r)))) ->
  exists D o so', foldM (fun mu st =>
      let '(D, roffs, sub_offs) := st in
      let ix := sv_index v mu in
      _ <- assert_ (0 <=? ix) ;;
      src <- rd v ix ;;
      let nrows := m_n0 (sp_mat src) in
      c <- ty_call sub_offs mu ;;
      let '(so, sub_offs) := c in
      D <- block2_add D roffs co (sp_mat src) 0 so nrows m ;;
      sub_offs <- ty_add sub_offs mu m ;;
      Ret (D, roffs + nrows, sub_offs)) (map (prem l) (corners l)) (D0, 0, so) = Ret (D, o, so') /\
  type_of (n - 1) so' /\ (forall x, mult so' x = mult so x + if inb x (map (prem l) (corners l)) then m else 0) /\
  stack (hrow n l) (fun r a b => m_at (sp_mat (vfind v (prem l r))) a (mult so (prem l r) + b)) co m (corners l) D0 D.
Proof.
  intros Hl Hn Hm (Hv & Nv) N0 Hco N1 Tso Hc. rewrite foldM_mapp.
  match goal with |- context [foldM ?body _ _] => destruct (foldM_prefix (fun pre st => 
     stack (hrow n l) (fun r a b => m_at (sp_mat (vfind v (prem l r))) a (mult so (prem l r) + b)) co m pre D0 (fst (fst st)) /\
     snd (fst st) = tops (hrow n l) pre /\ type_of (n - 1) (snd st) /\ forall x, mult (snd st) x = mult so x + if inb x (map (prem l) pre) then m else 0)
     body (corners l) (D0, 0, so)) as (((D & o) & so') & E & S & So & To & Mo) end.
  - split; [apply stack_nil|]. split; [reflexivity|]. split; [auto|]. cbn [snd]. intros x. cbn. lia.
  - intros pre r post ((D & o) & so1) Ec (S & So & To & Mo). cbn [fst snd] in S, So, To, Mo. subst o.
    assert (In r (corners l)) as Hr by (rewrite Ec; apply in_app_iff; right; left; auto).
    assert (is_part (n - 1) (prem l r)) as Pr by (eapply corner_part; eauto).
    destruct (Hc r Hr) as (K & U0 & U1). destruct (vfind_key v _ K) as (I & EK). remember (vfind v (prem l r)) as Q eqn:EQ.
    apply in_split in I as (a & b & Ev). destruct (key_split v a Q b Nv Ev) as (Ka & Kb).
    assert (sv_index v (prem l r) = zlen a) as ->.
    { rewrite <- EK. apply (index_split (n - 1) v a Q b); auto. intros P HP. apply Hv. auto. }
    cbv beta iota zeta. rewrite (proj2 (Z.leb_le 0 (zlen a)) (zlen_nonneg a)). cbn [assert_ bind].
    assert (rd v (zlen a) = Ret Q) as -> by (rewrite Ev; apply rd_at). cbn [bind].
    destruct (call_ok (n - 1) so1 (prem l r) To Pr) as (so2 & E2 & T2 & _ & M2 & _). rewrite E2. cbn [bind].
    assert (mult so1 (prem l r) = mult so (prem l r)) as Em.
    { rewrite Mo. assert (inb (prem l r) (map (prem l) pre) = false) as ->; [|lia].
      apply not_true_iff_false. rewrite inb_iff. intros H. apply in_map_iff in H as (r' & E & Hr').
      assert (In r' (corners l)) as Hr2 by (rewrite Ec; apply in_app_iff; auto).
      apply prem_inj in E; [|eapply is_part_ppos; eauto|apply in_corners in Hr2; lia|apply in_corners in Hr; lia]. subst r'.
      destruct (nodup_split _ _ _ _ (NoDup_corners l) Ec). contradiction. }
    rewrite Em.
    destruct (Hv Q) as (_ & _ & Q0 & Q1); [rewrite Ev; apply in_app_iff; right; left; auto|]. rewrite EK in Q0. fold (hrow n l r) in Q0.
    destruct (boff_fit n l r Hl Hn Hr) as (B1 & B2). rewrite (boff_split n l pre r post Ec) in B1, B2. fold (hrow n l r) in B2.
    pose proof (hrow_nonneg n l r) as Hh. pose proof S as (S0 & S1 & _).
    destruct (block2_add_ok D (tops (hrow n l) pre) co (sp_mat Q) 0 (mult so (prem l r)) (m_n0 (sp_mat Q)) m) as (D' & ED & AD); try lia.
    rewrite ED. cbn [bind]. destruct (add_ok (n - 1) so2 (prem l r) m T2 Pr) as (so3 & E3 & T3 & _ & M3). rewrite E3. cbn [bind]. eexists. split; [reflexivity|]. cbn [fst snd]. split; [|split; [|split; [auto|]]].
    + apply (stack_snoc _ _ _ _ pre r D0 D D'); auto. { intros; apply hrow_nonneg. }
      rewrite Q0 in AD. destruct AD as (A0 & A1 & A2). split; [auto|]. split; [auto|]. intros x y. rewrite A2. rewrite <- EQ. rewrite !Z.add_0_r.
      rewrite (Z.add_comm (mult so (prem l r))). reflexivity.
    + rewrite tops_snoc, Q0. reflexivity.
    + intros x. rewrite M3, M2, Mo. destruct (pdec (prem l r) x) as [<-|Nx].
      * replace (inb (prem l r) (map (prem l) (pre ++ [r]))) with true by (symmetry; apply inb_iff; rewrite map_app; apply in_app_iff; right; left; auto).
        rewrite <- Mo, Em. reflexivity.
      * replace (inb x (map (prem l) (pre ++ [r]))) with (inb x (map (prem l) pre)); [lia|].
        apply eq_true_iff_eq. rewrite !inb_iff, map_app, in_app_iff. cbn [map In]. intuition congruence.
  - exists D, o, so'. cbn [fst snd] in *. auto.
Qed.

(* P' is P with the parts of tau added from column mult o0 on *)
Definition acc_part (n : Z) (v : list spart) (o0 pre : list (list Z * Z)) (P P' : spart) : Prop :=
  sp_irr P' = sp_irr P /\ m_n0 (sp_mat P') = m_n0 (sp_mat P) /\ m_n1 (sp_mat P') = m_n1 (sp_mat P) /\
  (forall a l m b r i j, pre = a ++ (l, m) :: b -> key P = l -> In r (corners l) -> 0 <= i < hrow n l r -> 0 <= j < m ->
    m_at (sp_mat P') (boff n l r + i) (mult o0 l + j) = (m_at (sp_mat P) (boff n l r + i)%Z (mult o0 l + j)%Z + m_at (sp_mat (vfind v (prem l r))) i (columns_used a (prem l r) + j)%Z)%R) /\
  (forall i j, (forall m, In (key P, m) pre -> ~ (0 <= i < io_d (mkirr n (key P)) /\ 0 <= j - mult o0 (key P) < m)) -> m_at (sp_mat P') i j = m_at (sp_mat P) i j).

Lemma acc_nil n v o0 P : acc_part n v o0 [] P P.
Proof. do 3 (split; [auto|]). split; [|auto]. intros a l m b r i j E. destruct a; discriminate. Qed.

(* a step that does not concern P *)
Lemma acc_skip n v o0 pre l m P P' : key P <> l -> acc_part n v o0 pre P P' -> acc_part n v o0 (pre ++ [(l, m)]) P P'.
Proof.
  intros N (A1 & A2 & A3 & A4 & A5). do 3 (split; [auto|]). split.
  - intros a l' m' b r i j E K Hr Hi Hj. destruct (nil_or_snoc b) as [->|(b' & z & ->)].
    + apply app_inj_tail in E as (_ & E). congruence.
    + rewrite app_comm_cons, app_assoc in E. apply app_inj_tail in E as (E & _). eapply A4; eauto.
  - intros i j H. apply A5. intros m' Hm'. apply H. apply in_app_iff; auto.
Qed.

Lemma acc_take n v o0 pre l m P P' D : is_part n l -> 2 <= n -> key P = l -> sp_irr P = mkirr n l -> ~ In l (map fst pre) -> m_n0 (sp_mat P) = io_d (mkirr n l) ->
  acc_part n v o0 pre P P' ->
  stack (hrow n l) (fun r a b => m_at (sp_mat (vfind v (prem l r))) a (columns_used pre (prem l r) + b)) (mult o0 l) m (corners l) (sp_mat P') D ->
  acc_part n v o0 (pre ++ [(l, m)]) P (mkSpart (sp_irr P') D).
Proof.
  intros Hl Hn K EI N N0 (A1 & A2 & A3 & A4 & A5) (S0 & S1 & S2 & S3).
  assert (forall i j, m_at (sp_mat P') i j = m_at (sp_mat P) i j) as Same.
  { intros i j. apply A5. rewrite K. intros m' Hm'. destruct N. apply (in_map fst) in Hm'. exact Hm'. }
  split; [auto|]. cbn [sp_mat sp_irr]. split; [congruence|]. split; [congruence|]. split.
  - intros a l' m' b r i j E K' Hr Hi Hj. destruct (nil_or_snoc b) as [->|(b' & z & ->)].
    + apply app_inj_tail in E as (-> & E). injection E as <- <-. apply in_split in Hr as (c1 & c2 & Ec). rewrite (boff_split n l c1 r c2 Ec). rewrite (S2 c1 r c2 i j Ec Hi Hj). rewrite Same. reflexivity.
    + rewrite app_comm_cons, app_assoc in E. apply app_inj_tail in E as (E & _). destruct N. rewrite E, map_app. apply in_app_iff. right. left. cbn. congruence.
  - intros i j H. rewrite S3, Same; [reflexivity|]. rewrite tops_corners by auto. specialize (H m). rewrite K in H. apply H. apply in_app_iff. right. left. auto.
Qed.

Lemma mult_snoc t l m x : ~ In l (map fst t) -> mult (t ++ [(l, m)]) x = mult t x + if pdec l x then m else 0.
Proof.
  induction t as [|(k, c) t IH]; intros N; cbn [mult app].
  - destruct (list_eq_dec Z.eq_dec l x), (pdec l x); congruence || lia.
  - cbn [map fst In] in N. destruct (list_eq_dec Z.eq_dec k x) as [<-|E]; [|apply IH; tauto]. destruct (pdec l k); [subst; tauto|lia].
Qed.

Lemma accumulate_pure n tau v rho R0 o0 : type_of n tau -> (forall p, In p tau -> 0 <= snd p) -> 2 <= n -> vgood (n - 1) v -> vgood n R0 -> type_of n o0 ->
  (forall l m mu, In (l, m) tau -> In mu (map (prem l) (corners l)) -> In mu (map key v) /\ columns_used tau mu <= m_n1 (sp_mat (vfind v mu))) ->
  rho = map key R0 ->
  (forall l m, In (l, m) tau -> In l rho /\ 0 <= mult o0 l /\ mult o0 l + m <= m_n1 (sp_mat (vfind R0 l))) ->
  exists R o, sv_accumulate_up R0 o0 v tau = Ret (R, o) /\ Forall2 (acc_part n v o0 tau) R0 R /\ type_of n o /\ forall l, mult o l = mult o0 l + mult tau l.
Proof.
  intros (Ts & Tp) Hm Hn Hv (HR & NR) To0 Hc -> Hr. pose proof (sorted_nodup _ Ts) as Nt. rewrite Forall_forall in Tp.
  assert (forall p, In p tau -> is_part n (fst p)) as Tp' by (intros p Hp; apply Tp, in_map; auto).
  unfold sv_accumulate_up.
  match goal with |- context [foldM ?body _ _] => destruct (foldM_prefix (fun pre st => 
     Forall2 (acc_part n v o0 pre) R0 (fst (fst st)) /\ type_of n (snd (fst st)) /\ (forall l, mult (snd (fst st)) l = mult o0 l + mult pre l) /\
     type_of (n - 1) (snd st) /\ forall mu, is_part (n - 1) mu -> mult (snd st) mu = columns_used pre mu)
     body tau (R0, o0, [])) as (((R & o) & so) & E & F & To & Mo & _) end.
  - cbn [fst snd]. split; [|split; [auto|split; [|split; [apply type_nil|]]]].
    + clear. induction R0; constructor; [apply acc_nil|auto].
    + intros l. cbn. lia.
    + reflexivity.
  - intros pre (l, m) post ((R & o) & so) Et (F & To & Mo & Tso & Mso). cbn [fst snd] in F, To, Mo, Tso, Mso.
    assert (In (l, m) tau) as Hp by (rewrite Et; apply in_app_iff; right; left; auto).
    assert (is_part n l) as Hl by (apply (Tp' _ Hp)).
    assert (0 <= m) as Hm0 by (apply (Hm _ Hp)).
    assert (~ In l (map fst pre)) as Npre by (rewrite Et, map_app in Nt; cbn [map fst] in Nt; apply (nodup_split _ _ _ _ Nt eq_refl)).
    destruct (Hr l m Hp) as (KR & C0 & C1). destruct (vfind_key R0 l KR) as (IR & KP). remember (vfind R0 l) as P eqn:EP.
    apply in_split in IR as (Ra & Rb & ER). rewrite ER in F. apply Forall2_app_inv_l in F as (Sa & Sb' & Fa & Fb & ->). inversion Fb as [|? P' ? Sb AP Fb' E1 E2]; subst Sb'. 
    destruct (key_split R0 Ra P Rb NR ER) as (Ka & Kb).
    assert (map key Sa = map key Ra) as KSa. { clear - Fa. induction Fa as [|x y xs ys H F IH]; cbn; [auto|]. rewrite IH. f_equal. unfold key. rewrite (proj1 H). auto. }
    assert (map key Sb = map key Rb) as KSb. { clear - Fb'. induction Fb' as [|x y xs ys H F IH]; cbn; [auto|]. rewrite IH. f_equal. unfold key. rewrite (proj1 H). auto. }
    assert (key P' = l) as KP' by (unfold key in *; rewrite (proj1 AP); auto).
    assert (sv_index (Sa ++ P' :: Sb) l = zlen Sa) as EIx.
    { replace l with (key P') by auto. apply (index_split n _ Sa P' Sb); [reflexivity| |rewrite KSa, KP', <- KP; auto].
      assert (map key (Sa ++ P' :: Sb) = map key R0) as EK by (rewrite ER, !map_app; cbn [map]; congruence).
      intros Q HQ. apply (in_map key) in HQ. rewrite EK in HQ. apply in_map_iff in HQ as (Q0 & EQ & HQ). rewrite <- EQ. apply HR. auto. }
    cbv beta iota zeta. cbn [fst snd]. rewrite EIx. rewrite (proj2 (Z.leb_le 0 (zlen Sa)) (zlen_nonneg Sa)). cbn [assert_ bind]. rewrite rd_at. cbn [bind].
    destruct (call_ok n o l To Hl) as (o1 & Eo1 & To1 & _ & Mo1 & _). rewrite Eo1. cbn [bind]. rewrite (ip_foreach_sub_ok n) by (auto; lia). cbn [bind].
    assert (mult o l = mult o0 l) as Eml. { rewrite Mo. rewrite (mult_aget pre). assert (mult pre l = 0) as Z0; [|rewrite <- (mult_aget pre); lia]. clear - Npre. induction pre as [|(k, c) pre IH]; cbn in *; [auto|]. destruct (list_eq_dec Z.eq_dec k l); [tauto|]. apply IH. tauto. }
    rewrite Eml.
    assert (In P R0) as IP by (rewrite ER; apply in_app_iff; right; left; auto). destruct (HR P IP) as (_ & EI & NP0 & NP1). rewrite KP in EI, NP0. pose proof AP as (AP1 & AP2 & AP3 & _).
    destruct (acc_inner n l m v so (sp_mat P') (mult o0 l)) as (D & oo & so' & ED & Tso' & Mso' & SD); auto; try congruence; try lia.
    { intros r Hrr. destruct (Hc l m (prem l r) Hp) as (X1 & X2); [apply in_map; auto|]. assert (is_part (n - 1) (prem l r)) as Pr by (eapply corner_part; eauto). rewrite Mso by auto. split; [auto|]. split.
      - apply used_nonneg. intros p Hp'. apply Hm. rewrite Et. apply in_app_iff; auto.
      - rewrite Et, used_app in X2. change ((l, m) :: post) with ([] ++ [(l, m)] ++ post) in X2. rewrite app_assoc, used_app, used_snoc in X2. cbn [fst snd] in X2.
        rewrite (fits_inb n l (prem l r)), (proj2 (inb_iff _ _)) in X2; [| |auto|lia|auto].
        + assert (0 <= columns_used post (prem l r)) by (apply used_nonneg; intros p Hp'; apply Hm; rewrite Et; apply in_app_iff; right; right; auto).
          change (columns_used [] (prem l r)) with 0 in X2. lia.
        + apply in_map; auto. }
    cbv beta iota zeta in ED. rewrite ED. cbn [bind]. rewrite wr_at. cbn [bind]. destruct (add_ok n o1 l m To1 Hl) as (o2 & Eo2 & To2 & _ & Mo2). rewrite Eo2. cbn [bind]. eexists. split; [reflexivity|]. cbn [fst snd].
    split; [|split; [auto|split; [|split; [auto|]]]].
    + rewrite ER. apply Forall2_app; [|constructor].
      * eapply Forall2_mono; [|exact Fa]. intros Q Q' HQ HQ'. apply acc_skip; auto. intros E. apply Ka. rewrite KP, <- E. apply in_map; auto.
      * apply (acc_take n v o0 pre l m P P' D); auto.
        destruct SD as (S0 & S1 & S2 & S3). split; [auto|]. split; [auto|]. split; [|auto]. intros p1 r p2 a b Ec Ha Hb. rewrite (S2 p1 r p2 a b Ec Ha Hb). rewrite Mso; [reflexivity|]. eapply corner_part; eauto. rewrite Ec. apply in_app_iff. right. left. auto.
      * eapply Forall2_mono; [|exact Fb']. intros Q Q' HQ HQ'. apply acc_skip; auto. intros E. apply Kb. rewrite KP, <- E. apply in_map; auto.
    + intros x0. rewrite Mo2, Mo1, Mo, mult_snoc by auto. lia.
    + intros mu Hmu. rewrite Mso', Mso, used_snoc by auto. cbn [fst snd]. rewrite (fits_inb n l mu) by (auto; lia). reflexivity.
  - exists R, o. rewrite E. cbn [bind fst snd] in *. auto.
Qed.

Theorem accumulate_vec n tau sg v rho R0 o0 : 2 <= n -> type_of n tau -> (forall p, In p tau -> 0 <= snd p) ->
  vec_of sg v -> Forall (is_part (n - 1)) (map fst sg) -> NoDup (map fst sg) ->
  (forall l m mu, In (l, m) tau -> is_part (n - 1) mu -> contained mu l -> exists k, In (mu, k) sg /\ columns_used tau mu <= k) ->
  type_of n rho -> vec_of rho R0 -> type_of n o0 ->
  (forall l m, In (l, m) tau -> 0 <= mult o0 l /\ exists M, In (l, M) rho /\ mult o0 l + m <= M) ->
  exists U R o, sv_up tau v = Ret U /\ sv_accumulate_up R0 o0 v tau = Ret (R, o) /\ vec_of rho R /\ type_of n o /\ (forall l, mult o l = mult o0 l + mult tau l) /\
    Forall2 (fun P P' =>
      (forall Q i j, In Q U -> sp_irr Q = sp_irr P -> 0 <= i < m_n0 (sp_mat Q) -> 0 <= j < m_n1 (sp_mat Q) ->
        m_at (sp_mat P') i (mult o0 (io_lambda (sp_irr P)) + j) = (m_at (sp_mat P) i (mult o0 (io_lambda (sp_irr P)) + j)%Z + m_at (sp_mat Q) i j)%R) /\
      (forall i j, (forall Q, In Q U -> sp_irr Q = sp_irr P -> ~ (0 <= i < m_n0 (sp_mat Q) /\ 0 <= j - mult o0 (io_lambda (sp_irr P)) < m_n1 (sp_mat Q))) ->
        m_at (sp_mat P') i j = m_at (sp_mat P) i j)) R0 R.
Proof.
  intros Hn T Hm V Sp Sn Hc Tr VR To Ho.
  assert (forall p, In p tau -> is_part n (fst p)) as Tp by (intros p Hp; destruct T as (_ & T'); rewrite Forall_forall in T'; apply T', in_map; auto).
  destruct (vec_good (n - 1) sg v) as (Vg & Vk & Vf); auto; [lia|].
  destruct (vec_good n rho R0) as (Rg & Rk & Rf); auto; [lia|apply Tr|apply (type_nodup n); auto|].
  assert (forall l m mu, In (l, m) tau -> In mu (map (prem l) (corners l)) -> In mu (map key v) /\ columns_used tau mu <= m_n1 (sp_mat (vfind v mu))) as Hc'.
  { intros l m mu I J. apply (subs_in n) in J as (J1 & J2); [|apply (Tp _ I)|lia]. destruct (Hc l m mu I J1 J2) as (k & K1 & K2). destruct (Vf mu k K1) as (F1 & F2 & F3). rewrite F3. split; auto. rewrite <- F2. apply in_map; auto. }
  destruct (up_pure n tau v T Hm Hn Vg Hc') as (U & EU & FU).
  destruct (accumulate_pure n tau v (map key R0) R0 o0 T Hm Hn Vg Rg To Hc' eq_refl) as (R & o & ER & FR & To' & Mo).
  { intros l m I. destruct (Ho l m I) as (H1 & M & H2 & H3). destruct (Rf l M H2) as (F1 & F2 & F3). rewrite F3. split; [|auto]. rewrite <- F2. apply in_map; auto. }
  exists U, R, o. split; [auto|]. split; [auto|]. split; [|split; [auto|split; [auto|]]].
  - clear - VR FR. revert R FR. induction VR as [|p P rho R0 H VR IH]; intros R FR; inversion FR as [|? P' ? R' A FR']; subst; constructor; [|apply IH; auto].
    destruct A as (A1 & A2 & A3 & _). destruct H as (H1 & H2 & H3 & H4). split; [congruence|]. split; [congruence|]. split; [congruence|auto].
  - pose proof (type_nodup n tau T) as Nt.
    eapply Forall2_mono; [|exact FR]. intros P P' HP (A1 & A2 & A3 & A4 & A5). fold (key P). destruct Rg as (Rg & _). destruct (Rg P HP) as (G1 & G2 & G3 & G4). cbv beta. split.
    + intros Q i j HQ EQ Hi Hj. destruct (Forall2_in_r _ _ _ _ FU HQ) as ((pre & (l, m)) & Hb & U1 & U2 & U3 & U4). cbn [fst snd] in *.
      assert (key P = l) as KP by (unfold key; rewrite <- EQ, U1; reflexivity).
      assert (exists post, tau = pre ++ (l, m) :: post) as (post & Et).
      { unfold befores in Hb. apply in_map_iff in Hb as (k0 & Ek & Hk). apply in_seq in Hk. injection Ek as Ek1 Ek2. exists (skipn (S k0) tau). rewrite <- Ek1, <- Ek2.
        clear - Hk. destruct Hk as (_ & Hk). cbn in Hk. revert k0 Hk. induction tau as [|x t IH]; intros [|k0] Hk; cbn in *; [lia|lia|reflexivity|]. f_equal. apply IH. lia. }
      assert (is_part n l) as Hl by (rewrite <- KP; auto). rewrite U2 in Hi. rewrite U3 in Hj.
      destruct (boff_find n l i Hl Hn Hi) as (r & a & Hr & Ha & ->). fold (hrow n l r) in Ha. rewrite KP. rewrite (A4 pre l m post r a j Et KP Hr Ha Hj). rewrite U4 by auto. reflexivity.
    + intros i j H. apply A5. intros m Hm'. 
      destruct (in_split _ _ Hm') as (pre & post & Et). destruct (Forall2_nth_l _ _ _ (length pre) (pre, (key P, m)) FU) as (Q & EQ & U1 & U2 & U3 & _); [rewrite Et; apply befores_at|]. cbn [fst snd] in *.
      apply nth_error_In in EQ. specialize (H Q EQ). rewrite U2, U3 in H. apply H. congruence.
Qed.
