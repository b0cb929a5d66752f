(* Batched vectors: every slice of the batched product is the product of the slices. *)
From Coq Require Import ZArith List Bool Lia Reals Lra Sorting.Sorted Permutation.
From Verif Require Import Model_Base Model_Perm Model_Sn Model_Part Model_Comb Model_Tab Model_Irrep Model_Type Model_FFT Model_Vec Model_Char Model_CG Model_CGvec Model_VecB.
From Verif Require Import Spec_Perm Spec_Part Spec_Tab Spec_Rep Spec_Four Spec_Type Spec_FFT Spec_Vec Spec_CG Spec_CGvec Spec_Prod.
From Verif Require Import Proof_Base Proof_Perm Proof_Sn Proof_Part Proof_PartProps Proof_Tab Proof_TabProps Proof_Cycles Proof_Cox Proof_Yor Proof_Sum Proof_Irrep Proof_Rep Proof_Mat Proof_IrrepProps Proof_JM Proof_Conn Proof_Schur Proof_Restr Proof_UpDown Proof_Complete Proof_Char Proof_CharBank Proof_Type Proof_Rept Proof_FFTmath Proof_FFTlay Proof_FFTlay2 Proof_FFTblk Proof_FFTstep Proof_View Proof_Vec Proof_Vec2 Proof_Vec3 Proof_Vec4 Proof_Vec5 Proof_Vec6 Proof_Vec7 Proof_Vec8 Proof_Kron Proof_CG Proof_CGdown Proof_CGvec1 Proof_CGvec2 Proof_CGvec3 Proof_CGvec4 Proof_CGvec5 Proof_CGvec6 Proof_CGvec7 Proof_Prod Proof_Hook Proof_Isot Proof_Learn1 Proof_Learn2.
Import ListNotations.
Open Scope Z_scope.

(* the product of two irreps is not empty *)
Lemma cgt_some n l1 l2 : 1 <= n -> is_part n l1 -> is_part n l2 -> cgt l1 l2 <> [].
Proof.
  intros Hn P1 P2 E. assert (forall lam, is_part n lam -> 0 < kz n l1 l2 lam -> False) as No by (intros lam Pl Hk; assert (In lam (map fst (cgt l1 l2))) as H by (apply (cgt_keys n); auto); rewrite E in H; destruct H).
  destruct (Z.eq_dec n 1) as [->|Ne].
  - rewrite (is_part_1 l1 P1), (is_part_1 l2 P2) in No. apply (No [1]); [apply decb_part; reflexivity|]. rewrite kz_one. lia.
  - replace n with (Z.of_nat (Z.to_nat (n - 2)) + 2) in P1, P2 by lia. destruct (isot_product (Z.to_nat (n - 2)) l1 l2 P1 P2) as (e & _ & _ & C).
    assert (0 < DD (Z.to_nat (n - 2)) l1 l2) as Dp by (unfold DD, d1, d2; apply Z.mul_pos_pos; apply dpos; auto; lia). specialize (C 0 0 ltac:(lia) ltac:(lia)). rewrite delta_refl, lsum_0 in C; [lra|]. intros lam Hl. apply in_pl in Hl; [|lia]. apply rsum_zero. intros t _.
    destruct (Z_lt_le_dec 0 (kz (Z.of_nat (Z.to_nat (n - 2)) + 2) l1 l2 lam)) as [H|H]; [|rewrite rsum_lsum, zrange_nil by lia; reflexivity]. exfalso. replace (Z.of_nat (Z.to_nat (n - 2)) + 2) with n in * by lia. eauto.
Qed.

Lemma F2_len {A B} (Q : A -> B -> Prop) X Y : Forall2 Q X Y -> length X = length Y.
Proof. induction 1; cbn; auto. Qed.

Lemma zfor01 {S} (body : Z -> S -> outcome S) s : zfor 0 1 body s = body 0 s.
Proof. rewrite zfor_cons by lia. destruct (body 0 s); reflexivity. Qed.

Lemma wr0 {A} (x y : A) l : wr (x :: l) 0 y = Ret (y :: l).
Proof. unfold wr. replace ((0 <=? 0) && (0 <? zlen (x :: l))) with true by (unfold zlen; cbn [length]; lia). reflexivity. Qed.

Definition sim {S T} (Q : S -> T -> Prop) (m : outcome S) (m' : outcome T) : Prop := forall t, m' = Ret t -> exists s, m = Ret s /\ Q s t.

Lemma sim_ret {S T} (Q : S -> T -> Prop) s t : Q s t -> sim Q (Ret s) (Ret t).
Proof. intros H t' E. apply Ret_inj in E. subst. eauto. Qed.
Lemma sim_bind {S T S' T'} (Q : S -> T -> Prop) (Q' : S' -> T' -> Prop) m m' k k' : sim Q m m' -> (forall s t, m = Ret s -> m' = Ret t -> Q s t -> sim Q' (k s) (k' t)) -> sim Q' (bind m k) (bind m' k').
Proof. intros H K t E. destruct m' as [t'| | |]; try discriminate. cbn [bind] in E. destruct (H t' eq_refl) as (s & Es & Hs). rewrite Es. cbn [bind]. apply (K s t'); auto. Qed.
Lemma sim_same {A S T} (Q : S -> T -> Prop) (m : outcome A) k k' : (forall a, m = Ret a -> sim Q (k a) (k' a)) -> sim Q (bind m k) (bind m k').
Proof. intros K t E. destruct m as [a| | |]; try discriminate. cbn [bind] in *. apply (K a eq_refl t E). Qed.
Lemma sim_foldM {S T I} (Q : S -> T -> Prop) (f : I -> S -> outcome S) (g : I -> T -> outcome T) l : (forall i s t, In i l -> Q s t -> sim Q (f i s) (g i t)) -> forall s t, Q s t -> sim Q (foldM f l s) (foldM g l t).
Proof.
  induction l as [|i l IH]; intros H s t H0; cbn [foldM]; [apply sim_ret; auto|]. eapply sim_bind; [apply H; [left; auto|exact H0]|]. intros s' t' _ _ H'. apply IH; auto. intros; apply H; auto; right; auto.
Qed.
Lemma sim_foldM2 {S T I J} (Q : S -> T -> Prop) (P : I -> J -> Prop) (f : I -> S -> outcome S) (g : J -> T -> outcome T) l l' : Forall2 P l l' -> (forall i j s t, In i l -> In j l' -> P i j -> Q s t -> sim Q (f i s) (g j t)) -> forall s t, Q s t -> sim Q (foldM f l s) (foldM g l' t).
Proof.
  induction 1 as [|i j l l' Hp F IH]; intros H s t H0; cbn [foldM]; [apply sim_ret; auto|]. eapply sim_bind; [apply (H i j); [left; auto|left; auto|auto|exact H0]|]. intros s' t' _ _ H'. apply IH; auto. intros; apply H; auto; right; auto.
Qed.

Section Slice.
  Variables (nb beta : Z).
  Hypothesis Hb : 0 <= beta < nb.

  Definition trel (T : ten) (A : mat) : Prop := t_n0 T = nb /\ t_n1 T = m_n0 A /\ t_n2 T = m_n1 A /\ forall i j, 0 <= i < m_n0 A -> 0 <= j < m_n1 A -> t_at T beta i j = m_at A i j.
  Definition prel (P : partb) (Q : spart) : Prop := pb_irr P = sp_irr Q /\ trel (pb_t P) (sp_mat Q).
  Definition vrel : list partb -> list spart -> Prop := Forall2 prel.

  Lemma zero_sim l m : sim prel (pb_zero nb l m) (sp_zero l m).
  Proof.
    unfold pb_zero, sp_zero. apply sim_same. intros o _ t E. destruct (m <? 0); [discriminate|]. apply Ret_inj in E. subst. replace (nb <? 0) with false by lia. eexists. split; [reflexivity|]. split; [auto|]. split; [auto|]. split; [auto|]. split; auto.
  Qed.
  Lemma vzero_sim tau : sim vrel (vb_zero nb tau) (sv_zero tau).
  Proof.
    unfold vb_zero, sv_zero. apply sim_foldM; [|constructor]. intros p s t _ H. eapply sim_bind; [apply zero_sim|]. intros P Q _ _ HP. apply sim_ret. apply Forall2_app; auto.
  Qed.
  Lemma type_eq V v : vrel V v -> vb_type V = sv_type v.
  Proof.
    intros H. unfold vb_type, sv_type. generalize (@nil (list Z * Z)). induction H as [|P Q V v (E & _ & _ & E2 & _) H IH]; intros t; cbn [foldM]; auto. unfold pb_m. rewrite E, E2. destruct (ty_set t _ _); cbn [bind]; auto.
  Qed.
  Lemma index_eq V v l : vrel V v -> vb_index V l = sv_index v l.
  Proof. intros H. unfold vb_index, sv_index. generalize 0. induction H as [|P Q V v (E & _) H IH]; intros i; cbn [vb_index_from sv_index_from]; auto. rewrite E, IH. auto. Qed.
  Lemma Forall2_nth {A B} (Q : A -> B -> Prop) X Y k y : Forall2 Q X Y -> nth_error Y k = Some y -> exists x, nth_error X k = Some x /\ Q x y.
  Proof. intros H. revert k. induction H as [|a b X Y Hab H IH]; intros [|k] E; cbn in *; try discriminate; [injection E as <-; eauto|auto]. Qed.
  Lemma rd_sim V v i : vrel V v -> sim prel (rd V i) (rd v i).
  Proof.
    intros H t E. unfold rd in *. destruct (0 <=? i); [|discriminate]. destruct (nth_error v (Z.to_nat i)) as [Q|] eqn:En; [|discriminate]. apply Ret_inj in E. subst Q. destruct (Forall2_nth _ _ _ _ _ H En) as (P & -> & HP). eauto.
  Qed.
  Lemma wr_sim V v i P Q : vrel V v -> prel P Q -> sim (fun V' v' => vrel V' v' /\ length v' = length v) (wr V i P) (wr v i Q).
  Proof.
    intros H HP t E. assert (zlen V = zlen v) as El by (unfold zlen; rewrite (F2_len _ _ _ H); auto). unfold wr in *. rewrite El. destruct ((0 <=? i) && (i <? zlen v)) eqn:Ei; [|discriminate]. apply Ret_inj in E. subst t. eexists. split; [reflexivity|]. split.
    - assert (forall k, Forall2 prel (firstn k V) (firstn k v) /\ Forall2 prel (skipn k V) (skipn k v)) as FS. { clear - H. induction H as [|a b X Y Hab H IH]; intros [|k]; cbn [firstn skipn]; split; auto; destruct (IH k); auto. }
      apply Forall2_app; [apply FS|]. constructor; [auto|apply FS].
    - rewrite app_length, firstn_length. cbn [length]. rewrite skipn_length. unfold zlen in Ei. lia.
  Qed.
  Lemma block_sim D d i j B b i' j' h w : trel D d -> trel B b -> sim trel (block3_add D i j B i' j' h w) (block2_add d i j b i' j' h w).
  Proof.
    intros (D0 & D1 & D2 & DV) (B0 & B1 & B2 & BV) t E. unfold block2_add in E. destruct (block_fits d i j h w && block_fits b i' j' h w) eqn:Ef; [|discriminate]. apply Ret_inj in E. subst t. unfold block3_add.
    replace ((t_n0 D =? t_n0 B) && block3_fits D i j h w && block3_fits B i' j' h w) with true by (unfold block_fits, block3_fits in *; rewrite D1, D2, B1, B2; lia). eexists. split; [reflexivity|]. split; [auto|]. split; [auto|]. split; [auto|]. cbn [m_n0 m_n1 m_at t_at]. intros a c Ha Hc.
    destruct (inrange (a - i) h && inrange (c - j) w) eqn:Er; [|apply DV; auto]. unfold inrange, block_fits in *. rewrite DV, BV by lia. auto.
  Qed.
  Lemma mul_sim T A M : trel T A -> sim trel (ten_mul T M) (mat_mul A M).
  Proof.
    intros (T0 & T1 & T2 & TV) t E. unfold mat_mul in E. destruct (m_n1 A =? m_n0 M) eqn:Ef; [|discriminate]. apply Ret_inj in E. subst t. unfold ten_mul. rewrite T2, Ef. eexists. split; [reflexivity|]. split; [auto|]. split; [auto|]. split; [auto|]. cbn [m_n0 m_n1 m_at t_at]. intros i j Hi Hj.
    rewrite !acc_sum_rsum. apply rsum_ext. intros k Hk. rewrite TV by auto. auto.
  Qed.

  Lemma accumulate_sim V v o W w tau : vrel V v -> vrel W w -> sim (fun s t => (vrel (fst s) (fst t) /\ length (fst t) = length v) /\ snd s = snd t) (vb_accumulate_up V o W tau) (sv_accumulate_up v o w tau).
  Proof.
    intros HV HW. unfold vb_accumulate_up, sv_accumulate_up.
    eapply (sim_bind (fun s t => (vrel (fst (fst s)) (fst (fst t)) /\ length (fst (fst t)) = length v) /\ snd (fst s) = snd (fst t) /\ snd s = snd t)).
    - apply sim_foldM; [|cbn; auto]. intros p ((V1 & o1) & so1) ((v1 & o1') & so1') _ ((H1 & L1) & H2 & H3). cbn [fst snd] in H1, L1, H2, H3. subst o1' so1'. cbv zeta. rewrite (index_eq V1 v1) by auto.
      apply sim_same. intros _ _. eapply sim_bind; [apply rd_sim; exact H1|]. intros P Q _ _ (HP1 & HP2). apply sim_same. intros (co & o2) _. apply sim_same. intros mus _.
      eapply (sim_bind (fun s t => trel (fst (fst s)) (fst (fst t)) /\ snd (fst s) = snd (fst t) /\ snd s = snd t)).
      + apply sim_foldM; [|cbn; auto]. intros mu ((D & ro) & so) ((d & ro') & so') _ (G1 & G2 & G3). cbn [fst snd] in G1, G2, G3. subst ro' so'. rewrite (index_eq W w) by auto. apply sim_same. intros _ _. eapply sim_bind; [apply rd_sim; exact HW|]. intros X Y _ _ (X1 & X2). apply sim_same. intros (so2 & so3) _.
        unfold pb_d. rewrite (proj1 (proj2 X2)). eapply sim_bind; [apply block_sim; eauto|]. intros D' d' _ _ HD. apply sim_same. intros so4 _. apply sim_ret. cbn [fst snd]. auto.
      + intros ((D & ro) & so) ((d & ro') & so') _ _ (G1 & G2 & G3). cbn [fst snd] in G1, G2, G3. subst ro' so'. eapply sim_bind; [apply (wr_sim V1 v1); [exact H1|]; split; [exact HP1|exact G1]|]. intros V2 v2 _ _ (H2 & L2). apply sim_same. intros o3 _. apply sim_ret. cbn [fst snd]. split; [split; [auto|congruence]|auto].
    - intros ((V1 & o1) & so1) ((v1 & o1') & so1') _ _ (H1 & H2 & H3). cbn [fst snd] in *. subst o1'. apply sim_ret. cbn [fst snd]. auto.
  Qed.

  (* restriction *)
  Lemma down_sim n P Q : 2 <= n -> pgood n Q -> prel P Q -> exists V v, vb_down P = Ret V /\ sv_down Q = Ret v /\ vrel V v.
  Proof.
    intros Hn G (E1 & T0 & T1 & T2 & TV). pose proof G as (G1 & G2 & G3 & G4). destruct (many_down n (m_n1 (sp_mat Q)) Q Hn G eq_refl) as (v & Ev & Fv & _). set (l := key Q) in *.
    assert (exists V, vb_down P = Ret V /\ Forall2 (fun r Pb => pb_irr Pb = mkirr (n - 1) (prem l r) /\ t_n0 (pb_t Pb) = nb /\ t_n1 (pb_t Pb) = hrow n l r /\ t_n2 (pb_t Pb) = m_n1 (sp_mat Q) /\
      forall a b, 0 <= a < hrow n l r -> 0 <= b < m_n1 (sp_mat Q) -> t_at (pb_t Pb) beta a b = m_at (sp_mat Q) (boff n l r + a) b) (corners l) V) as (V & EV & FV).
    2:{ exists V, v. split; [auto|]. split; [auto|]. clear - FV Fv. revert v Fv. induction FV as [|r Pb cs V (A1 & A2 & A3 & A4 & A5) F IH]; intros v Fv; inversion Fv as [|r' Qv cs' v' (B1 & B2 & B3 & B4) Fv']; subst; constructor; [|apply IH; auto]. split; [congruence|]. split; [auto|]. split; [congruence|]. split; [congruence|]. rewrite B2, B3. intros i j Hi Hj. rewrite A5, B4 by auto. auto. }
    unfold vb_down. cbv zeta. rewrite E1, G2. cbn [mkirr io_lambda]. fold l. rewrite (ip_foreach_sub_ok n) by (auto; lia). cbn [bind]. rewrite foldM_mapp. unfold pb_m, pb_b. rewrite T2, T0. set (m := m_n1 (sp_mat Q)) in *.
    match goal with |- context [foldM ?bd _ _] => set (body := bd) end.
    destruct (foldM_prefix (fun pre st => Forall2 (fun r Pb => pb_irr Pb = mkirr (n - 1) (prem l r) /\ t_n0 (pb_t Pb) = nb /\ t_n1 (pb_t Pb) = hrow n l r /\ t_n2 (pb_t Pb) = m /\
      forall a b, 0 <= a < hrow n l r -> 0 <= b < m -> t_at (pb_t Pb) beta a b = m_at (sp_mat Q) (boff n l r + a) b) pre (fst st) /\ snd st = tops (hrow n l) pre) body (corners l) ([], 0)) as ((V & o) & E & F & _).
    - split; [constructor|reflexivity].
    - intros pre r post (V & o) Ec (F & Eo). cbn [fst snd] in F, Eo. subst o. assert (In r (corners l)) as Hr by (rewrite Ec; apply in_app_iff; right; left; auto). assert (is_part (n - 1) (prem l r)) as Pr by (eapply corner_part; eauto).
      unfold body. unfold pb_zero. rewrite (proj1 (mkirr_ok (n - 1) (prem l r) Pr ltac:(lia))). cbn [bind]. replace ((m <? 0) || (nb <? 0)) with false by lia. cbn [bind pb_t pb_irr]. unfold pb_d. cbn [pb_t t_n1]. fold (hrow n l r).
      destruct (boff_fit n l r G1 Hn Hr) as (B1 & B2). rewrite (boff_split n l pre r post Ec) in B1, B2. fold (hrow n l r) in B2. pose proof (hrow_nonneg n l r) as Hh.
      unfold block3_add. cbn [t_n0]. replace (_ && _ && _) with true by (unfold block3_fits; cbn [t_n1 t_n2]; rewrite T0, T1, T2, G3; lia). cbn [bind]. eexists. split; [reflexivity|]. cbn [fst snd]. split.
      + apply Forall2_app; [auto|]. constructor; [|constructor]. cbn [pb_irr pb_t t_n0 t_n1 t_n2 t_at]. split; [auto|]. split; [auto|]. split; [auto|]. split; [auto|]. intros a b Ha Hbb. rewrite !Z.sub_0_r. rewrite (proj2 (inrange_iff _ _) Ha), (proj2 (inrange_iff _ _) Hbb). cbn [andb]. rewrite Rplus_0_l, Z.add_0_r. rewrite TV by (rewrite ?G3; lia).
        rewrite (boff_split n l pre r post Ec). f_equal. lia.
      + rewrite tops_snoc. reflexivity.
    - exists V. rewrite E. cbn [bind fst]. auto.
  Qed.

  Lemma getb_ok V v : vrel V v -> v <> [] -> vb_getb V = Ret nb.
  Proof. intros H Ne. destruct H as [|P Q V v (_ & E & _) H]; [destruct Ne; auto|]. cbn. unfold pb_b. rewrite E. auto. Qed.

  Definition arel (N : nat) (s : list partb * stype * cgbank) (t : list spart * stype * cgbank) : Prop :=
    vrel (fst (fst s)) (fst (fst t)) /\ length (fst (fst t)) = N /\ snd (fst s) = snd (fst t) /\ snd s = snd t /\ ginv (snd t).

  Definition acc_sim (F : ftable) (k : nat) : Prop := forall n b X Y x y R r o N, n = Z.of_nat k + 1 -> ginv b -> unitp n x -> unitp n y -> prel X x -> prel Y y -> vrel R r -> length r = N -> (0 < N)%nat ->
    sim (arel N) (cgb_acc F (S k) b R o X Y) (cg_acc F (S k) b r o x y).

  Lemma sv_zero_len tau v : sv_zero tau = Ret v -> length v = length tau.
  Proof.
    unfold sv_zero. assert (forall l, foldM (fun p R => P <- sp_zero (fst p) (snd p) ;; Ret (R ++ [P])) tau l = Ret v -> length v = (length l + length tau)%nat) as H.
    { induction tau as [|p tau IH]; intros l E; cbn [foldM] in E; [apply Ret_inj in E; subst; cbn; lia|]. destruct (sp_zero (fst p) (snd p)); try discriminate. cbn [bind] in E. apply IH in E. rewrite app_length in E. cbn in *. lia. }
    intros E. apply H in E. auto.
  Qed.

  Lemma vec_sim F k accb acc : acc_sim F k -> forall n b X Y x y, n = Z.of_nat k + 1 -> ginv b -> ugood n x -> ugood n y -> x <> [] -> y <> [] -> vrel X x -> vrel Y y ->
    (forall b R o p q, In p X -> accb b R o p q = cgb_acc F (S k) b R o p q) -> (forall b R o p q, In p x -> acc b R o p q = cg_acc F (S k) b R o p q) ->
    sim (fun s t => vrel (fst s) (fst t) /\ snd s = snd t /\ ginv (snd t)) (cgb_vec_with accb b X Y) (cg_vec_with acc b x y).
  Proof.
    intros A n b X Y x y En I Ux Uy Nx Ny HX HY Eb Ea. unfold cgb_vec_with, cg_vec_with. rewrite (getb_ok X x), (getb_ok Y y) by auto. cbn [bind]. unfold sameb2. rewrite Z.eqb_refl. cbn [assert_ bind]. rewrite (type_eq X x), (type_eq Y y) by auto.
    apply sim_same. intros tx Ex. apply sim_same. intros ty Ey. apply sim_same. intros (T & b1) ET.
    destruct (type_units n x Ux) as (tx' & Ex' & Tx & Px), (type_units n y Uy) as (ty' & Ey' & Ty & Py). assert (tx' = tx) by congruence. assert (ty' = ty) by congruence. subst tx' ty'.
    destruct (cg_types_ok b n tx ty I ltac:(lia) Tx Ty) as (T' & b1' & ET' & I1 & PT). rewrite ET in ET'. apply Ret_inj in ET'. injection ET' as <- <-.
    assert (0 < length T)%nat as LT. { destruct x as [|p x]; [destruct Nx; auto|]. destruct y as [|q y]; [destruct Ny; auto|]. destruct (units_tprod n _ _ tx ty T Px Py PT) as (MT & KT).
      destruct T as [|]; [exfalso|cbn; lia]. destruct Ux as ((Gx & _) & _), Uy as ((Gy & _) & _). destruct (Gx p ltac:(left; auto)) as (P1 & _), (Gy q ltac:(left; auto)) as (P2 & _). destruct (cgt (key p) (key q)) as [|(lam, m) t] eqn:Ec; [apply (cgt_some n (key p) (key q)); auto; lia|].
      assert (In lam (map fst (cgt (key p) (key q)))) as Hl by (rewrite Ec; left; auto). apply (cgt_keys n) in Hl; auto; [|lia]. destruct Hl as (Pl & Hk). assert (In lam (map fst (@nil (list Z * Z)))) as []. apply KT. split; [auto|]. exists (p, q). split; [left; reflexivity|]. exact Hk. }
    eapply sim_bind; [apply vzero_sim|]. intros R r _ Er HR. apply sv_zero_len in Er. unfold cgb_add, cg_add.
    eapply (sim_bind (arel (length T))).
    - apply (sim_foldM2 (arel (length T)) prel _ _ _ _ HX); [|split; [exact HR|]; split; [exact Er|]; split; [reflexivity|]; split; [reflexivity|exact I1]]. intros P p s t HP Hp Hpp Hst. apply (sim_foldM2 (arel (length T)) prel _ _ _ _ HY); [|auto]. intros Q q ((R1 & o1) & b2) ((r1 & o1') & b2') HQ Hq Hqq (S1 & S2 & S3 & S4 & S5). cbn [fst snd] in S1, S2, S3, S4, S5. subst o1' b2'. rewrite Eb, Ea by auto. destruct Ux as ((Gx & _) & Ux), Uy as ((Gy & _) & Uy).
      apply (A n); auto; split; auto; [apply Gx|apply Gy]; auto.
    - intros ((R1 & o1) & b2) ((r1 & o1') & b2') _ _ (S1 & S2 & S3 & S4 & S5). cbn [fst snd] in *. apply sim_ret. auto.
  Qed.

  Lemma cgb_acc_S F fuel' b R offs x y : cgb_acc F (S fuel') b R offs x y =
    (let lambda1 := io_lambda (pb_irr x) in
      let lambda2 := io_lambda (pb_irr y) in
      bR <- vb_getb R ;; nb <- sameb3 bR (pb_b x) (pb_b y) ;;
      let n := io_n (pb_irr x) in
      _ <- assert_ (io_n (pb_irr y) =? n) ;;
      if n =? 1 then
        let I := pb_m x in
        let J := pb_m y in
        R <- zfor 0 nb (fun k R => zfor 0 I (fun i R => zfor 0 J (fun j R =>
               u <- tget (pb_t x) k 0 i ;; v <- tget (pb_t y) k 0 j ;;
               P <- rd R 0 ;; T <- tinc (pb_t P) k 0 (i * J + j) (u * v)%R ;;
               wr R 0 (mkPartb (pb_irr P) T)) R) R) R ;;
        offs <- ty_add offs [1] (I * J) ;;
        Ret (R, offs, b)
      else
        xsub <- vb_down x ;;
        ysub <- vb_down y ;;
        r <- cgb_vec_with (cgb_acc F fuel') b xsub ysub ;; let '(sub, b) := r in
        r <- cg_factors F b lambda1 lambda2 ;; let '(fs, b) := r in
        tilde <- foldM (fun p st =>
                   let ix := vb_index sub (fst p) in
                   _ <- assert_ (0 <=? ix) ;;
                   P <- rd sub ix ;;
                   o <- irr_new (fst p) ;;
                   T <- ten_mul (pb_t P) (snd p) ;;
                   Ret (st ++ [mkPartb o T])) fs [] ;;
        r <- cg_product b lambda1 lambda2 ;; let '(t, b) := r in
        r <- vb_accumulate_up R offs tilde t ;;
        Ret (fst r, snd r, b)).
  Proof. reflexivity. Qed.

  Lemma acc_sim0 F : acc_sim F 0.
  Proof.
    intros n b X Y x y R r o N En I Ux Uy HX HY HR LN Np. rewrite cgb_acc_S, cg_acc_S. cbv zeta. rewrite (getb_ok R r) by (auto; intros ->; cbn in *; lia). cbn [bind].
    destruct Ux as ((X1 & X2 & X3 & X4) & X5), Uy as ((Y1 & Y2 & Y3 & Y4) & Y5). destruct HX as (HX1 & HX2 & HX3 & HX4 & HX5), HY as (HY1 & HY2 & HY3 & HY4 & HY5).
    unfold pb_b, pb_m. rewrite HX2, HY2. unfold sameb3. rewrite Z.eqb_refl. cbn [assert_ bind]. rewrite HX1, HY1, X2, Y2. cbn [mkirr io_n]. rewrite Z.eqb_refl. cbn [assert_ bind]. replace (n =? 1) with true by lia. rewrite HX4, HY4, X5, Y5.
    assert (dd n (key x) = 1 /\ dd n (key y) = 1) as (Dx & Dy). { assert (n = 1) by lia. subst n. rewrite (is_part_1 _ X1), (is_part_1 _ Y1). split; reflexivity. }
    eapply (sim_bind (fun s t => vrel s t /\ length t = N)).
    - rewrite (zfor01 (fun i R2 => zfor 0 1 _ R2) r), zfor01. intros t E. rewrite !mget_ok in E by lia. cbn [bind] in E. destruct r as [|P r]; [discriminate|]. change (rd (P :: r) 0) with (Ret P) in E. cbn [bind] in E. change (0 * 1 + 0) with 0 in E. inversion HR as [|P0 ? R1 ? (HP1 & HP2 & HP3 & HP4 & HP5) HR1]; subst.
      destruct (inrange 0 (m_n0 (sp_mat P)) && inrange 0 (m_n1 (sp_mat P))) eqn:Er; [|unfold minc, mget in E; rewrite Er in E; discriminate]. apply andb_prop in Er as (Er1 & Er2). apply inrange_iff in Er1, Er2.
      destruct (minc_ok (sp_mat P) 0 0 (m_at (sp_mat x) 0 0 * m_at (sp_mat y) 0 0)%R Er1 Er2) as (M & EM & M0 & M1 & MV). rewrite EM in E. cbn [bind] in E. rewrite wr0 in E.
      set (P' := mkSpart (sp_irr P) M) in *.
      destruct (zfor_inv (fun k s => exists T, s = mkPartb (pb_irr P0) T :: R1 /\ trel T (if beta <? k then M else sp_mat P)) 0 nb (fun k R2 => zfor 0 1 (fun i R3 => zfor 0 1 (fun j R4 =>
         u <- tget (pb_t X) k 0 i ;; v <- tget (pb_t Y) k 0 j ;; P1 <- rd R4 0 ;; T <- tinc (pb_t P1) k 0 (i * 1 + j) (u * v)%R ;; wr R4 0 (mkPartb (pb_irr P1) T)) R3) R2) (P0 :: R1)) as (s & Es & T & Et & HT).
      + lia.
      + exists (pb_t P0). split; [destruct P0; reflexivity|]. replace (beta <? 0) with false by lia. split; auto.
      + intros k s Hk (T & Et & HT). rewrite (zfor01 _ s), zfor01. rewrite !tget_ok by lia. cbn [bind]. rewrite Et. change (rd (mkPartb (pb_irr P0) T :: R1) 0) with (Ret (mkPartb (pb_irr P0) T)). cbn [bind pb_t pb_irr]. change (0 * 1 + 0) with 0. unfold tinc.
        assert (t_n0 T = nb /\ t_n1 T = m_n0 (sp_mat P) /\ t_n2 T = m_n1 (sp_mat P)) as (T0 & T1 & T2) by (destruct HT as (A & B & C & _); destruct (beta <? k); rewrite ?M0, ?M1 in *; auto).
        rewrite tget_ok by lia. cbn [bind]. destruct (tset_ok T k 0 0 (t_at T k 0 0 + t_at (pb_t X) k 0 0 * t_at (pb_t Y) k 0 0)%R ltac:(lia) ltac:(lia) ltac:(lia)) as (T' & ET' & (TD0 & TD1 & TD2) & TV). rewrite ET'. cbn [bind]. rewrite wr0. eexists. split; [reflexivity|]. exists T'. split; [reflexivity|].
        assert (m_n0 (if beta <? k + 1 then M else sp_mat P) = m_n0 (sp_mat P) /\ m_n1 (if beta <? k + 1 then M else sp_mat P) = m_n1 (sp_mat P)) as (Q0 & Q1) by (destruct (beta <? k + 1); auto). split; [congruence|]. rewrite Q0, Q1. split; [congruence|]. split; [congruence|].
        intros i j Hi Hj. rewrite TV. destruct HT as (_ & _ & _ & HT). destruct (Z.ltb_spec beta k), (Z.ltb_spec beta (k + 1)); try lia.
        * replace (beta =? k) with false by lia. cbn [andb]. apply HT; lia.
        * assert (k = beta) by lia. subst k. rewrite Z.eqb_refl, MV. cbn [andb]. rewrite HT by lia. destruct ((i =? 0) && (j =? 0)) eqn:Eij; [|apply HT; lia]. rewrite HX5, HY5 by lia. replace i with 0 by lia. replace j with 0 by lia. reflexivity.
        * replace (beta =? k) with false by lia. cbn [andb]. apply HT; lia.
      + exists s. split; [exact Es|]. subst s. apply Ret_inj in E. subst t. replace (beta <? nb) with true in HT by lia. split; [|cbn; auto]. constructor; [|auto]. split; auto.
    - intros s t _ _ (H1 & H2). apply sim_same. intros o' _. apply sim_ret. split; [auto|]. auto.
  Qed.

  Lemma acc_simS F k : acc_sim F k -> acc_sim F (S k).
  Proof.
    intros A n b X Y x y R r o N En I Ux Uy HX HY HR LN Np. rewrite cgb_acc_S, cg_acc_S. cbv zeta. rewrite (getb_ok R r) by (auto; intros ->; cbn in *; lia). cbn [bind].
    pose proof Ux as ((X1 & X2 & X3 & X4) & X5). pose proof Uy as ((Y1 & Y2 & Y3 & Y4) & Y5). pose proof HX as (HX1 & HX2 & HX3 & HX4 & HX5). pose proof HY as (HY1 & HY2 & HY3 & HY4 & HY5).
    unfold pb_b. rewrite HX2, HY2. unfold sameb3. rewrite Z.eqb_refl. cbn [assert_ bind]. rewrite HX1, HY1, X2, Y2. cbn [mkirr io_n io_lambda]. rewrite Z.eqb_refl. cbn [assert_ bind]. replace (n =? 1) with false by lia.
    destruct (down_sim n X x ltac:(lia) (proj1 Ux) HX) as (VX & vx & EX & Ex & RX), (down_sim n Y y ltac:(lia) (proj1 Uy) HY) as (VY & vy & EY & Ey & RY). rewrite EX, EY, Ex, Ey. cbn [bind].
    destruct (unit_down n x ltac:(lia) Ux) as (vx' & Ex' & _ & Gx & Kx), (unit_down n y ltac:(lia) Uy) as (vy' & Ey' & _ & Gy & Ky). assert (vx' = vx) by congruence. assert (vy' = vy) by congruence. subst vx' vy'.
    assert (forall v l, 2 <= n -> is_part n l -> map key v = belows l -> v <> []) as Ne. { intros v l H2 Pl K E. subst v. unfold belows in K. symmetry in K. apply map_eq_nil in K. revert K. apply (corners_some n); auto. lia. }
    eapply sim_bind; [apply (vec_sim F k (cgb_acc F (S k)) (cg_acc F (S k)) A (n - 1)); auto; [lia|apply (Ne vx (key x)); auto; lia|apply (Ne vy (key y)); auto; lia]|]. intros (sub & b1) (sub' & b1') _ _ (S1 & S2 & S3). cbn [fst snd] in S1, S2, S3. subst b1'.
    destruct (cgt_ok n (key x) (key y) ltac:(lia) X1 Y1) as (PT & EC). apply sim_same. intros (fs & b2) Ef. assert (ginv b2) as I2. { unfold cg_factors in Ef. destruct (EC b1 S3) as (b2' & E2 & I2). rewrite E2 in Ef. cbn [bind] in Ef. destruct (ty_down (cgt (key x) (key y))); try discriminate. cbn [bind] in Ef. apply Ret_inj in Ef. injection Ef as _ <-. auto. }
    eapply (sim_bind vrel).
    - apply sim_foldM; [|constructor]. intros p s t _ Hst. cbv zeta. rewrite (index_eq sub sub') by auto. apply sim_same. intros _ _. eapply sim_bind; [apply rd_sim; exact S1|]. intros P Q _ _ (HP1 & HP2). apply sim_same. intros oo _. eapply sim_bind; [apply mul_sim; exact HP2|]. intros T M _ _ HT. apply sim_ret. apply Forall2_app; [auto|]. constructor; [|constructor]. split; auto.
    - intros Vt vt _ _ HV. apply sim_same. intros (tt & b3) Et. destruct (EC b2 I2) as (b3' & E3 & I3). rewrite E3 in Et. apply Ret_inj in Et. injection Et as <- <-. eapply sim_bind; [apply accumulate_sim; eauto|]. intros s t _ _ ((H1 & H2) & H3). apply sim_ret. split; [auto|]. cbn [fst snd]. split; [congruence|]. auto.
  Qed.

  Lemma acc_sim_all F k : acc_sim F k.
  Proof. induction k; [apply acc_sim0|apply acc_simS; auto]. Qed.

  Lemma cg_vec_sim F n b X Y x y : 1 <= n -> ginv b -> ugood n x -> ugood n y -> x <> [] -> y <> [] -> vrel X x -> vrel Y y ->
    sim (fun s t => vrel (fst s) (fst t) /\ snd s = snd t /\ ginv (snd t)) (cgb_vec F b X Y) (cg_vec F b x y).
  Proof.
    intros Hn I Ux Uy Nx Ny HX HY. apply (vec_sim F (Z.to_nat (n - 1)) _ _ (acc_sim_all F _) n); auto; [lia| |].
    - intros b0 R o p q Hp. assert (exists p', In p' x /\ prel p p') as (p' & Hp' & E & _). { clear - Hp HX. induction HX as [|P Q V v H HX IH]; [destruct Hp|]. destruct Hp as [->|Hp]; [exists Q; split; [left; auto|auto]|]. destruct (IH Hp) as (p' & A & B). exists p'. split; [right; auto|auto]. }
      rewrite E. destruct Ux as ((G & _) & _). destruct (G p' Hp') as (_ & Ep & _). rewrite Ep. cbn [mkirr io_n]. replace (Z.to_nat n) with (S (Z.to_nat (n - 1))) by lia. reflexivity.
    - intros b0 R o p q Hp. destruct Ux as ((G & _) & _). destruct (G p Hp) as (_ & Ep & _). rewrite Ep. cbn [mkirr io_n]. replace (Z.to_nat n) with (S (Z.to_nat (n - 1))) by lia. reflexivity.
  Qed.

  Lemma cg_part_sim F n b X Y x y : 1 <= n -> ginv b -> unitp n x -> unitp n y -> prel X x -> prel Y y ->
    sim (fun s t => vrel (fst s) (fst t) /\ snd s = snd t /\ ginv (snd t)) (cgb_part F b X Y) (cg_part F b x y).
  Proof.
    intros Hn I Ux Uy HX HY. unfold cgb_part, cg_part, pb_b. pose proof HX as (X1 & X2 & _). pose proof HY as (Y1 & Y2 & _). pose proof Ux as ((P1 & Ex & _) & _). pose proof Uy as ((P2 & Ey & _) & _). rewrite X1, X2, Y1, Y2. unfold sameb2. rewrite Z.eqb_refl. cbn [assert_ bind]. fold (key x). fold (key y).
    destruct (cgt_ok n (key x) (key y) Hn P1 P2) as (PT & EC). destruct (EC b I) as (b1 & E1 & I1). rewrite E1. cbn [bind]. eapply sim_bind; [apply vzero_sim|]. intros R r _ Er HR. apply sv_zero_len in Er. rewrite Ex. cbn [mkirr io_n]. replace (Z.to_nat n) with (S (Z.to_nat (n - 1))) by lia.
    assert (0 < length (cgt (key x) (key y)))%nat as Lp by (pose proof (cgt_some n (key x) (key y) Hn P1 P2); destruct (cgt (key x) (key y)); [congruence|cbn; lia]).
    eapply sim_bind; [apply (acc_sim_all F _ n); eauto; lia|]. intros ((R1 & o1) & b2) ((r1 & o1') & b2') _ _ (S1 & S2 & S3 & S4 & S5). cbn [fst snd] in *. apply sim_ret. auto.
  Qed.
End Slice.
