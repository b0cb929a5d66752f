(* SnVec: restriction and induction commute with the smaller group. *)
From Coq Require Import ZArith List Bool Lia Reals Lra Sorting.Sorted Permutation.
From Verif Require Import Model_Base Model_Perm Model_Sn Model_Part Model_Comb Model_Tab Model_Irrep Model_Type Model_FFT Model_Vec.
From Verif Require Import Spec_Perm Spec_Part Spec_Tab Spec_Rep Spec_Four Spec_Type Spec_FFT Spec_Vec.
From Verif Require Import Proof_Base Proof_Perm Proof_Sn Proof_Part Proof_PartProps Proof_Tab Proof_TabProps Proof_Cycles Proof_Cox Proof_Yor Proof_Sum Proof_Irrep Proof_Rep Proof_Mat Proof_IrrepProps Proof_JM Proof_Conn Proof_Schur Proof_Restr Proof_UpDown Proof_Complete Proof_CharBank Proof_Type Proof_FFTmath Proof_FFTlay Proof_FFTlay2 Proof_FFTblk Proof_FFTstep Proof_Vec Proof_Vec2 Proof_Vec3 Proof_Vec4 Proof_Vec5 Proof_Vec6.
Import ListNotations.
Open Scope Z_scope.

(* a row of the restricted matrix *)
Lemma sub_row_sum n l q r a (f : Z -> R) : is_part n l -> 2 <= n -> is_perm (n - 1) q -> In r (corners l) -> 0 <= a < hrow n l r ->
  rsum (io_d (mkirr n l)) (fun k => (rr n l (q ++ [n]) (boff n l r + a) k * f k)%R) = rsum (hrow n l r) (fun k => (rr (n - 1) (prem l r) q a k * f (boff n l r + k)%Z)%R).
Proof.
  intros Hl Hn Hq Hr Ha. rewrite (rsum_boff n) by auto. rewrite (lsum_single _ r); [|apply NoDup_corners|auto|].
  - apply rsum_ext. intros k Hk. rewrite rr_boff by auto. destruct (Z.eq_dec r r); [reflexivity|contradiction].
  - intros r' Hr' N. rewrite rsum_lsum. apply lsum_0. intros k Hk. apply in_zrange in Hk. rewrite rr_boff by auto. destruct (Z.eq_dec r r'); [congruence|ring].
Qed.

Lemma down_moved n l m P P' q : is_part n l -> 2 <= n -> part_of l m P -> is_perm (n - 1) q -> vmoved n (q ++ [n]) P P' -> forall r Q Q' W, In r (corners l) ->
  down_part n l m P r Q -> down_part n l m P' r Q' -> vmoved (n - 1) q Q W -> same_part Q' W.
Proof.
  intros Hl Hn HP Hq (M1 & M2 & M3 & M4) r Q Q' W Hr (D1 & D2 & D3 & D4) (F1 & F2 & F3 & F4) (W1 & W2 & W3 & W4).
  destruct (part_good n l m P Hl ltac:(lia) HP) as (EI & N0 & N1 & Hm). assert (key P = l) as KP by (unfold key; rewrite EI; reflexivity). assert (key Q = prem l r) as KQ by (unfold key; rewrite D1; reflexivity).
  split; [congruence|]. split; [congruence|]. split; [congruence|]. rewrite F2, F3. intros a b Ha Hb. rewrite W4 by (rewrite ?D2, ?D3; auto). rewrite F4 by auto. destruct (boff_fit n l r Hl Hn Hr) as (B1 & B2). fold (hrow n l r) in B2.
  rewrite M4 by (rewrite ?N0, ?N1; auto; lia). rewrite KP, KQ. unfold mprod. rewrite (sub_row_sum n l q r a (fun k => m_at (sp_mat P) k b)) by auto. fold (hrow n l r). apply rsum_ext. intros k Hk. rewrite D4 by auto. reflexivity.
Qed.

Theorem down_equivariant n l m P q : is_part n l -> 2 <= n -> part_of l m P -> is_perm (n - 1) q ->
  exists P' V V' W, sv_apply (q ++ [n]) [P] = Ret [P'] /\ sv_down P = Ret V /\ sv_down P' = Ret V' /\ sv_apply q V = Ret W /\ Forall2 same_part V' W.
Proof.
  intros Hl Hn HP Hq. destruct (part_pgood n l m P Hl ltac:(lia) HP) as (G & K & N1).
  assert (is_perm n (q ++ [n])) as Hq' by (pose proof (is_perm_snoc (n - 1) q Hq) as H; replace (n - 1 + 1) with n in H by lia; auto).
  destruct (apply_pure n (q ++ [n]) [P] ltac:(lia) Hq') as (v' & EA & FA); [intros X [<-|[]]; auto|]. inversion FA as [|? P' ? t M FA']; subst. inversion FA'; subst.
  assert (vec_of [(key P, m_n1 (sp_mat P))] [P']) as VP'.
  { eapply (vmoved_vec n (q ++ [n]) _ [P] [P']); eauto; [lia|intros p [<-|[]]; auto|]. constructor; [auto|constructor]. }
  inversion VP' as [|? ? ? ? HP' _]; subst. cbn [fst snd] in HP'.
  destruct (down_pure n _ _ P Hl Hn HP) as (V & EV & FV). destruct (down_pure n _ _ P' Hl Hn HP') as (V' & EV' & FV').
  assert (forall Q, In Q V -> pgood (n - 1) Q) as Gv.
  { intros Q HQ. destruct (Forall2_in_r _ _ _ _ FV HQ) as (r & Hr & D1 & D2 & D3 & _). assert (key Q = prem (key P) r) as KQ by (unfold key at 1; rewrite D1; reflexivity). unfold pgood. rewrite KQ.
    split; [eapply corner_part; eauto|]. split; [auto|]. split; [exact D2|]. rewrite D3. apply G. }
  destruct (apply_pure (n - 1) q V ltac:(lia) Hq Gv) as (W & EW & FW). exists P', V, V', W. do 4 (split; [auto|]).
  assert (Forall2 (fun r W => exists Q, down_part n (key P) (m_n1 (sp_mat P)) P r Q /\ vmoved (n - 1) q Q W) (corners (key P)) W) as FF by (eapply Forall2_trans; [|exact FV|exact FW]; eauto).
  eapply Forall2_comp; [|exact FV'|exact FF]. intros r Q' X Hr D (Q & D' & M'). eapply (down_moved n (key P) _ P P' q); eauto.
Qed.

Lemma vfind_moved n q v v' mu : Forall2 (vmoved n q) v v' -> In mu (map key v) -> vmoved n q (vfind v mu) (vfind v' mu).
Proof.
  unfold vfind. intros F. induction F as [|Q Q' v v' M F IH]; intros H; [destruct H|]. cbn [find]. assert (key Q' = key Q) as K by (unfold key; rewrite (proj1 M); auto). rewrite K.
  destruct (pdec (key Q) mu) as [E|E]; [auto|]. apply IH. destruct H as [H|H]; [contradiction|auto].
Qed.

Theorem up_equivariant n tau sg v q : 2 <= n -> type_of n tau -> (forall p, In p tau -> 0 <= snd p) ->
  vec_of sg v -> Forall (is_part (n - 1)) (map fst sg) -> NoDup (map fst sg) ->
  (forall l m mu, In (l, m) tau -> is_part (n - 1) mu -> contained mu l -> exists k, In (mu, k) sg /\ columns_used tau mu <= k) -> is_perm (n - 1) q ->
  exists v' R R' W, sv_apply q v = Ret v' /\ sv_up tau v = Ret R /\ sv_up tau v' = Ret R' /\ sv_apply (q ++ [n]) R = Ret W /\ Forall2 same_part R' W.
Proof.
  intros Hn T Hm V Sp Sn Hc Hq. 
  assert (is_perm n (q ++ [n])) as Hq' by (pose proof (is_perm_snoc (n - 1) q Hq) as H; replace (n - 1 + 1) with n in H by lia; auto).
  assert (forall p, In p tau -> is_part n (fst p)) as Tp by (intros p Hp; destruct T as (_ & T'); rewrite Forall_forall in T'; apply T', in_map; auto).
  assert (forall p, In p sg -> is_part (n - 1) (fst p)) as Sp' by (intros p Hp; rewrite Forall_forall in Sp; apply Sp, in_map; auto).
  pose proof (vec_pgood (n - 1) sg v ltac:(lia) Sp' V) as Gv. destruct (apply_pure (n - 1) q v ltac:(lia) Hq Gv) as (v' & Ev' & Fv').
  pose proof (vmoved_vec (n - 1) q sg v v' ltac:(lia) Sp' V Fv') as V'.
  destruct (vec_good (n - 1) sg v) as (Vg & Vk & Vf); auto; [lia|]. destruct (vec_good (n - 1) sg v') as (Vg' & Vk' & Vf'); auto; [lia|].
  assert (forall l m mu, In (l, m) tau -> In mu (map (prem l) (corners l)) -> exists k, In (mu, k) sg /\ columns_used tau mu <= k) as Hc'.
  { intros l m mu I J. apply (subs_in n) in J as (J1 & J2); [|apply (Tp _ I)|lia]. eauto. }
  destruct (up_pure n tau v T Hm Hn Vg) as (R & ER & FR).
  { intros l m mu I J. destruct (Hc' l m mu I J) as (k & K1 & K2). destruct (Vf mu k K1) as (F1 & F2 & F3). rewrite F3. split; auto. rewrite <- F2. apply in_map; auto. }
  destruct (up_pure n tau v' T Hm Hn Vg') as (R' & ER' & FR').
  { intros l m mu I J. destruct (Hc' l m mu I J) as (k & K1 & K2). destruct (Vf' mu k K1) as (F1 & F2 & F3). rewrite F3. split; auto. rewrite <- F2. apply in_map; auto. }
  assert (forall P, In P R -> pgood n P) as GR.
  { intros P HP. destruct (Forall2_in_r _ _ _ _ FR HP) as (b & Hb & U1 & U2 & U3 & _). assert (In (snd b) tau) as I by (rewrite <- (befores_snd p0 tau); apply in_map; auto).
    assert (key P = fst (snd b)) as KP by (unfold key; rewrite U1; reflexivity). unfold pgood. rewrite KP. split; [auto|]. split; [auto|]. split; [auto|]. rewrite U3. auto. }
  destruct (apply_pure n (q ++ [n]) R ltac:(lia) Hq' GR) as (W & EW & FW). exists v', R, R', W. do 4 (split; [auto|]).
  assert (Forall2 (fun b W => exists P, up_part n v (fst b) (snd b) P /\ vmoved n (q ++ [n]) P W) (befores p0 tau) W) as FF by (eapply Forall2_trans; [|exact FR|exact FW]; intros b X Y _ H1 H2; exists X; auto).
  eapply Forall2_comp; [|exact FR'|exact FF]. intros (pre & (l, m)) P' W1 Hb (U1' & U2' & U3' & U4') (P & (U1 & U2 & U3 & U4) & (M1 & M2 & M3 & M4)). cbn [fst snd] in *.
  assert (In (l, m) tau) as I by (rewrite <- (befores_snd p0 tau); apply (in_map snd) in Hb; exact Hb). pose proof (Tp _ I) as Hl. cbn [fst] in Hl.
  assert (key P = l) as KP by (unfold key; rewrite U1; reflexivity).
  split; [congruence|]. split; [congruence|]. split; [congruence|]. rewrite U2', U3'. intros i b Hi Hb'. rewrite M4 by (rewrite ?U2, ?U3; auto). rewrite KP.
  destruct (boff_find n l i Hl Hn Hi) as (r & a & Hr & Ha & ->). fold (hrow n l r) in Ha. rewrite U4' by auto. unfold mprod. rewrite (sub_row_sum n l q r a (fun k => m_at (sp_mat P) k b)) by auto.
  destruct (Hc' l m (prem l r) I (in_map _ _ _ Hr)) as (k & K1 & K2). destruct (Vf _ k K1) as (F1 & F2 & F3).
  destruct (vfind_moved (n - 1) q v v' (prem l r) Fv') as (X1 & X2 & X3 & X4); [rewrite Vk; apply (in_map fst) in K1; exact K1|].
  destruct (Gv _ F1) as (_ & _ & Z0 & _). rewrite F2 in *.
  assert (columns_used pre (prem l r) + m <= columns_used tau (prem l r)) as CU.
  { assert (exists post, tau = pre ++ (l, m) :: post) as (post & ->).
    { unfold befores in Hb. apply in_map_iff in Hb as (k0 & Ek & Hk). apply in_seq in Hk. injection Ek as Ek1 Ek2. exists (skipn (S k0) tau). rewrite <- Ek1, <- Ek2.
      clear - Hk. destruct Hk as (_ & Hk). cbn in Hk. revert k0 Hk. induction tau as [|x t IH]; intros [|k0] Hk; cbn in *; [lia|lia|reflexivity|]. f_equal. apply IH. lia. }
    rewrite used_app. assert (0 <= columns_used post (prem l r)) by (apply used_nonneg; intros p Hp; apply Hm; apply in_app_iff; right; right; auto).
    change ((l, m) :: post) with ([(l, m)] ++ post). rewrite used_app. change [(l, m)] with ([] ++ [(l, m)]). rewrite used_snoc. change (columns_used [] (prem l r)) with 0. cbn [fst snd].
    assert (fits (prem l r) l = true) as ->; [|lia]. rewrite (fits_inb n) by (auto; try lia; eapply corner_part; eauto). apply inb_iff. apply in_map. auto. }
  assert (0 <= columns_used pre (prem l r)) as C0.
  { apply used_nonneg. intros p Hp. apply Hm. unfold befores in Hb. apply in_map_iff in Hb as (k0 & Ek & Hk). injection Ek as Ek1 Ek2. rewrite <- Ek1 in Hp. clear - Hp; revert Hp; generalize k0; induction tau as [|x t IH]; intros [|k]; cbn; try tauto; intros [H|H]; eauto. }
  rewrite X4 by (rewrite ?Z0, ?F3; auto; lia). unfold mprod. fold (hrow n l r). apply rsum_ext. intros c Hc0. rewrite U4 by auto. reflexivity.
Qed.

(* the action is additive *)
Theorem apply_add n tau v y p : 1 <= n -> type_of n tau -> vec_of tau v -> vec_of tau y -> is_perm n p ->
  exists s sp vp yp w, sv_add v y = Ret s /\ sv_apply p s = Ret sp /\ sv_apply p v = Ret vp /\ sv_apply p y = Ret yp /\ sv_add vp yp = Ret w /\ Forall2 same_part sp w.
Proof.
  intros Hn T V Y Hp. pose proof (tau_parts n tau T) as Tp.
  destruct (add_vec n tau v y Hn T V Y) as (s & Es & Vs & As).
  destruct (apply_pure n p v Hn Hp (vec_pgood n tau v Hn Tp V)) as (vp & Ev & Fv). destruct (apply_pure n p y Hn Hp (vec_pgood n tau y Hn Tp Y)) as (yp & Ey & Fy). destruct (apply_pure n p s Hn Hp (vec_pgood n tau s Hn Tp Vs)) as (sp & Esp & Fs).
  pose proof (vmoved_vec n p tau v vp Hn Tp V Fv) as Vvp. pose proof (vmoved_vec n p tau y yp Hn Tp Y Fy) as Vyp. pose proof (vmoved_vec n p tau s sp Hn Tp Vs Fs) as Vsp.
  destruct (add_vec n tau vp yp Hn T Vvp Vyp) as (w & Ew & Vw & Aw). exists s, sp, vp, yp, w. do 5 (split; [auto|]).
  pose proof (Forall2_len _ _ _ V). pose proof (Forall2_len _ _ _ Y). pose proof (Forall2_len _ _ _ Vs). pose proof (Forall2_len _ _ _ Vvp). pose proof (Forall2_len _ _ _ Vyp). pose proof (Forall2_len _ _ _ Vsp). pose proof (Forall2_len _ _ _ Vw).
  assert (forall k A, nth_error sp k = Some A -> exists B, nth_error w k = Some B /\ same_part A B) as N.
  { intros k A EA. assert (k < length tau)%nat as Hk by (assert (nth_error sp k <> None) as C by congruence; apply nth_error_Some in C; lia).
    destruct (nth_error tau k) as [t|] eqn:Et; [|apply nth_error_None in Et; lia].
    destruct (Forall2_nth_l _ _ _ _ _ V Et) as (P & EP & KP). destruct (Forall2_nth_l _ _ _ _ _ Y Et) as (Q & EQ & KQ). destruct (As k P Q EP EQ) as (S & ES & SI & SA).
    destruct (Forall2_nth_l _ _ _ _ _ Fv EP) as (P' & EP' & MP). destruct (Forall2_nth_l _ _ _ _ _ Fy EQ) as (Q' & EQ' & MQ). destruct (Forall2_nth_l _ _ _ _ _ Fs ES) as (A' & EA' & MA). rewrite EA in EA'. injection EA' as <-.
    destruct (Aw k P' Q' EP' EQ') as (B & EB & BI & BA). exists B. split; [auto|].
    destruct (Forall2_nth_l _ _ _ _ _ Vs Et) as (S' & ES' & KS). rewrite ES in ES'. injection ES' as <-. destruct (Forall2_nth_l _ _ _ _ _ Vw Et) as (B' & EB' & KB). rewrite EB in EB'. injection EB' as <-.
    destruct KP as (_ & KP0 & KP1 & _), KQ as (KQI & KQ0 & KQ1 & _), KS as (KSI & KS0 & KS1 & _), KB as (KBI & KB0 & KB1 & _). destruct MP as (MP1 & MP2 & MP3 & MP4), MQ as (MQ1 & MQ2 & MQ3 & MQ4), MA as (MA1 & MA2 & MA3 & MA4).
    assert (sp_irr B = sp_irr S) as BS by congruence. assert (sp_irr Q = sp_irr S) as QS by congruence. assert (sp_irr P = sp_irr S) as PS by congruence. assert (key P = key S /\ key Q = key S) as (K1 & K2) by (unfold key; rewrite PS, QS; auto).
    split; [congruence|]. split; [congruence|]. split; [congruence|]. intros i j Hi Hj. rewrite MA2 in Hi. rewrite MA3 in Hj. rewrite BA, MA4 by auto. rewrite MP4, MQ4 by congruence. rewrite K1, K2. unfold mprod. rewrite !rsum_lsum, <- lsum_plus. apply lsum_ext. intros k' _. rewrite SA. ring. }
  assert (length sp = length w) as L by lia. clear - N L. revert w N L. induction sp as [|A sp IH]; intros [|B w] N L; try discriminate; constructor.
  - destruct (N 0%nat A eq_refl) as (B' & E & S). cbn in E. injection E as <-. auto.
  - apply IH; [|cbn in L; lia]. intros k X E. apply (N (S k) X E).
Qed.
