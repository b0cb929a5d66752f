(* SnVec: tableaux; down and up in terms of tableaux. *)
From Coq Require Import ZArith List Bool Lia Reals Lra Sorting.Sorted Permutation.
From Verif Require Import Model_Base Model_Perm Model_Sn Model_Part Model_Comb Model_Tab Model_Irrep Model_Type Model_FFT Model_Vec.
From Verif Require Import Spec_Perm Spec_Part Spec_Tab Spec_Rep Spec_Four Spec_Type Spec_FFT Spec_Vec.
From Verif Require Import Proof_Base Proof_Perm Proof_Sn Proof_Part Proof_PartProps Proof_Tab Proof_TabProps Proof_Cycles Proof_Cox Proof_Yor Proof_Sum Proof_Irrep Proof_Rep Proof_Mat Proof_IrrepProps Proof_JM Proof_Conn Proof_Schur Proof_Restr Proof_UpDown Proof_Complete Proof_CharBank Proof_Type Proof_FFTlay Proof_FFTlay2 Proof_FFTblk Proof_FFTstep Proof_Vec Proof_Vec2.
Import ListNotations.
Open Scope Z_scope.

Lemma filter_true {A} (f : A -> bool) l : (forall x, In x l -> f x = true) -> filter f l = l.
Proof. induction l as [|x l IH]; intros H; cbn; auto. rewrite H by (left; auto). f_equal. apply IH. intros. apply H. right. auto. Qed.

Lemma erase_id n t : ~ In n (concat t) -> map (filter (fun v => negb (v =? n))) t = t.
Proof.
  intros H. rewrite <- (map_id t) at 2. apply map_ext_in. intros r Hr. apply filter_true. intros x Hx. destruct (Z.eqb_spec x n) as [->|]; auto.
  destruct H. apply in_concat. eauto.
Qed.

Lemma erase_yadd n t r : 0 <= r <= zlen t -> (forall x, In x t -> x <> []) -> ~ In n (concat t) -> erase n (yadd t r n) = t.
Proof.
  intros Hr Hne Hn. unfold erase.
  assert (filter (fun r : list Z => match r with [] => false | _ => true end) t = t) as Fid.
  { apply filter_true. intros x Hx. specialize (Hne x Hx). destruct x; congruence. }
  unfold yadd. destruct (Z.ltb_spec r (zlen t)).
  - rewrite map_zupd, filter_app. cbn [filter]. rewrite Z.eqb_refl. cbn [negb]. rewrite app_nil_r.
    assert (filter (fun v => negb (v =? n)) (znth t r []) = znth t r []) as E.
    { apply filter_true. intros x Hx. destruct (Z.eqb_spec x n) as [->|]; auto. destruct Hn. apply in_concat. exists (znth t r []). split; auto. apply znth_In. lia. }
    rewrite E, erase_id by auto. rewrite zupd_same by lia. exact Fid.
  - rewrite map_app, erase_id by auto. cbn [map filter]. rewrite Z.eqb_refl. cbn [negb]. rewrite filter_app, Fid. cbn [filter]. apply app_nil_r.
Qed.

Lemma erase_block n l r a : is_part n l -> 2 <= n -> In r (corners l) -> 0 <= a < hrow n l r ->
  erase n (tb (mkirr n l) (boff n l r + a)) = tb (mkirr (n - 1) (prem l r)) a.
Proof.
  intros Hl Hn Hr Ha. assert (is_part (n - 1) (prem l r)) as Pr by (eapply corner_part; eauto).
  destruct (mkirr_ok (n - 1) (prem l r) Pr ltac:(lia)) as (_ & G).
  rewrite (tb_boff n l r a Hl Hn Hr Ha).
  pose proof (tb_standard _ _ _ _ G Ha) as (Sh & Pm & _). rewrite (is_part_sum _ _ Pr) in Pm. unfold has_shape in Sh.
  apply erase_yadd.
  - apply in_corners in Hr as Hr'. assert (zlen (tb (mkirr (n - 1) (prem l r)) a) = zlen (prem l r)) as Lz by (rewrite <- Sh at 2; unfold zlen; rewrite map_length; reflexivity).
    rewrite Lz. pose proof (zlen_prem l r (is_part_ppos _ _ Hl) (proj1 Hr')). lia.
  - intros x Hx ->. destruct Pr as (Pp & _). specialize (Pp 0). rewrite <- Sh in Pp. assert (1 <= 0); [apply Pp|lia]. apply in_map_iff. exists []. auto.
  - intros H. apply (proj1 (proj2 Pm)) in H. lia.
Qed.

(* rows and tableaux *)
Lemma row_tableau o t i : nth_error (io_tabs o) i = Some t -> 0 <= Z.of_nat i < io_d o /\ tb o (Z.of_nat i) = t.
Proof.
  intros H. unfold io_d, tb, zlen, znth. rewrite Nat2Z.id. split; [|apply nth_error_nth; auto].
  assert (nth_error (io_tabs o) i <> None) as K by congruence. apply nth_error_Some in K. lia.
Qed.

Lemma tableau_row o a : 0 <= a < io_d o -> nth_error (io_tabs o) (Z.to_nat a) = Some (tb o a).
Proof. intros H. unfold tb, znth. apply nth_error_nth'. unfold io_d, zlen in H. lia. Qed.

Lemma at_iff P t j x : at_tableau P t j x <-> 0 <= j < m_n1 (sp_mat P) /\ exists a, 0 <= a < io_d (sp_irr P) /\ tb (sp_irr P) a = t /\ m_at (sp_mat P) a j = x.
Proof.
  unfold at_tableau. split.
  - intros (Hj & i & H & E). split; auto. apply row_tableau in H as (H1 & H2). exists (Z.of_nat i). auto.
  - intros (Hj & a & Ha & Ht & E). split; auto. exists (Z.to_nat a). rewrite tableau_row, Z2Nat.id by lia. split; [congruence|auto].
Qed.

(* ---- down ---- *)

Lemma Forall2_in_l {A B} (R : A -> B -> Prop) l l' x : Forall2 R l l' -> In x l -> exists y, In y l' /\ R x y.
Proof. induction 1 as [|a b l l' H F IH]; intros I; [destruct I|]. destruct I as [->|I]; [exists b; split; [left; auto|auto]|]. destruct (IH I) as (y & Hy & K). exists y. split; [right; auto|auto]. Qed.

Lemma Forall2_in_r {A B} (R : A -> B -> Prop) l l' y : Forall2 R l l' -> In y l' -> exists x, In x l /\ R x y.
Proof. induction 1 as [|a b l l' H F IH]; intros I; [destruct I|]. destruct I as [->|I]; [exists a; split; [left; auto|auto]|]. destruct (IH I) as (x & Hx & K). exists x. split; [right; auto|auto]. Qed.


Theorem down_vec n l m P : is_part n l -> 2 <= n -> part_of l m P ->
  exists mus V, ip_foreach_sub l = Ret mus /\ sv_down P = Ret V /\ vec_of (map (fun mu => (mu, m)) mus) V /\
    (forall t j x, at_tableau P t j x -> exists Q, In Q V /\ at_tableau Q (erase n t) j x) /\
    (forall Q u j x, In Q V -> at_tableau Q u j x -> exists t, erase n t = u /\ at_tableau P t j x).
Proof.
  intros Hl Hn HP. destruct (down_pure n l m P Hl Hn HP) as (V & EV & F). destruct (part_good n l m P Hl ltac:(lia) HP) as (EI & D0 & D1 & Hm).
  exists (map (prem l) (corners l)), V. split; [apply (ip_foreach_sub_ok n); auto; lia|]. split; [auto|]. split; [|split].
  - unfold vec_of. rewrite map_map.
    assert (forall r, In r (corners l) -> is_part (n - 1) (prem l r)) as Hc by (intros; eapply corner_part; eauto). clear EV. revert Hc F. generalize (corners l) as cs. intros cs Hc F. induction F as [|r Q cs V (E1 & E2 & E3 & _) F IH]; cbn [map]; constructor.
    + cbn [fst snd]. apply (good_part (n - 1)); auto; [apply Hc; left; auto|lia].
    + apply IH. intros; apply Hc; right; auto.
  - intros t j x H. apply at_iff in H as (Hj & i & Hi & Ht & Hx). rewrite EI in *. destruct (boff_find n l i Hl Hn Hi) as (r & a & Hr & Ha & ->).
    destruct (Forall2_in_l _ _ _ _ F Hr) as (Q & HQ & (E1 & E2 & E3 & E4)). exists Q. split; auto. apply at_iff. rewrite E3. split; [lia|]. exists a. rewrite E1. split; [auto|]. split.
    + rewrite <- Ht. symmetry. apply erase_block; auto.
    + rewrite E4 by (auto; lia). auto.
  - intros Q u j x HQ H. apply at_iff in H as (Hj & a & Ha & Hu & Hx). destruct (Forall2_in_r _ _ _ _ F HQ) as (r & Hr & (E1 & E2 & E3 & E4)). rewrite E1 in Ha, Hu. rewrite E3 in Hj.
    exists (tb (mkirr n l) (boff n l r + a)). split; [rewrite erase_block; auto|]. apply at_iff. rewrite D1, EI. split; [auto|]. exists (boff n l r + a). split; [apply boff_bound; auto|]. split; [auto|]. rewrite <- E4 by auto. auto.
Qed.

(* ---- up ---- *)

Lemma vec_good n sg v : 1 <= n -> vec_of sg v -> Forall (is_part n) (map fst sg) -> NoDup (map fst sg) ->
  vgood n v /\ map key v = map fst sg /\ (forall mu k, In (mu, k) sg -> In (vfind v mu) v /\ key (vfind v mu) = mu /\ m_n1 (sp_mat (vfind v mu)) = k).
Proof.
  intros Hn F Hp N.
  assert (map key v = map fst sg /\ forall Q, In Q v -> is_part n (key Q) /\ sp_irr Q = mkirr n (key Q) /\ m_n0 (sp_mat Q) = io_d (mkirr n (key Q)) /\ 0 <= m_n1 (sp_mat Q) /\ In (key Q, m_n1 (sp_mat Q)) sg) as (K & H).
  { clear N. induction F as [|p Q sg v H F IH]; cbn [map]; [split; [auto|intros Q []]|]. cbn [map] in Hp. apply Forall_inv in Hp as P1. apply Forall_inv_tail in Hp. destruct (IH Hp) as (IH1 & IH2).
    destruct (part_good n _ _ Q P1 Hn H) as (E1 & E2 & E3 & E4). assert (key Q = fst p) as KQ by (unfold key; rewrite E1; reflexivity). split; [rewrite IH1, KQ; auto|].
    intros Q' [<-|HQ]; [|destruct (IH2 Q' HQ) as (X1 & X2 & X3 & X4 & X5); repeat (split; [auto|]); right; auto].
    rewrite KQ. split; [auto|]. split; [auto|]. split; [auto|]. split; [lia|]. left. rewrite E3. destruct p; auto. }
  split; [split; [|rewrite K; auto]|split; [auto|]].
  - intros Q HQ. destruct (H Q HQ) as (X1 & X2 & X3 & X4 & _). auto.
  - intros mu k I. assert (In mu (map key v)) as I' by (rewrite K; apply (in_map fst) in I; exact I). destruct (vfind_key v mu I') as (V1 & V2). split; [auto|]. split; [auto|].
    destruct (H _ V1) as (_ & _ & _ & _ & I2). rewrite V2 in I2. clear - N I I2. revert I I2. induction sg as [|(a, b) sg IH]; intros I I2; [destruct I|].
    cbn [map fst] in N. inversion N as [|? ? N1 N2]; subst. destruct I as [I|I], I2 as [I2|I2]; try congruence; auto.
    + injection I as -> ->. destruct N1. apply (in_map fst) in I2. exact I2.
    + injection I2 as -> ->. destruct N1. apply (in_map fst) in I. exact I.
Qed.

Lemma tabs_row n l t : is_part n l -> 1 <= n -> standard l t -> exists i, 0 <= i < io_d (mkirr n l) /\ tb (mkirr n l) i = t.
Proof.
  intros Hl Hn S. destruct (mkirr_ok n l Hl Hn) as (_ & G). destruct (good_tabs n l _ G) as (_ & I). apply I in S. apply (In_znth _ _ []) in S as (i & Hi & E). exists i. auto.
Qed.

Lemma tb_inj n l i j : is_part n l -> 1 <= n -> 0 <= i < io_d (mkirr n l) -> 0 <= j < io_d (mkirr n l) -> tb (mkirr n l) i = tb (mkirr n l) j -> i = j.
Proof.
  intros Hl Hn Hi Hj E. destruct (mkirr_ok n l Hl Hn) as (_ & G). destruct (good_tabs n l _ G) as (N & _). unfold tb, znth in E. unfold io_d, zlen in Hi, Hj.
  apply (proj1 (NoDup_nth _ [])) in E; auto; lia.
Qed.

Lemma shape_det n l l' i j : is_part n l -> is_part n l' -> 1 <= n -> 0 <= i < io_d (mkirr n l) -> 0 <= j < io_d (mkirr n l') -> tb (mkirr n l) i = tb (mkirr n l') j -> l = l'.
Proof.
  intros Hl Hl' Hn Hi Hj E. destruct (mkirr_ok n l Hl Hn) as (_ & G), (mkirr_ok n l' Hl' Hn) as (_ & G').
  pose proof (proj1 (tb_standard _ _ _ _ G Hi)) as S. pose proof (proj1 (tb_standard _ _ _ _ G' Hj)) as S'. rewrite E in S. unfold has_shape in *. congruence.
Qed.

Lemma Forall2_nth_l {A B} (R : A -> B -> Prop) l l' i x : Forall2 R l l' -> nth_error l i = Some x -> exists y, nth_error l' i = Some y /\ R x y.
Proof. intros F. revert i. induction F as [|a b l l' H F IH]; intros [|i] E; cbn in E; try discriminate; [injection E as ->; eexists; split; [reflexivity|auto]|]. apply IH; auto. Qed.

Lemma Forall2_mono {A B} (R S : A -> B -> Prop) l l' : (forall x y, In x l -> R x y -> S x y) -> Forall2 R l l' -> Forall2 S l l'.
Proof. intros H F. induction F; constructor; [apply H; [left|]; auto|]. apply IHF. intros; apply H; [right; auto|auto]. Qed.

Lemma Forall2_map_l {A A' B} (f : A -> A') (R : A' -> B -> Prop) l l' : Forall2 R (map f l) l' <-> Forall2 (fun x y => R (f x) y) l l'.
Proof.
  split.
  - revert l'. induction l as [|a l IH]; intros l' F; cbn in F; inversion F; subst; constructor; auto.
  - induction 1; cbn; constructor; auto.
Qed.

Theorem up_vec n tau sg v : 2 <= n -> type_of n tau -> (forall p, In p tau -> 0 <= snd p) ->
  vec_of sg v -> Forall (is_part (n - 1)) (map fst sg) -> NoDup (map fst sg) ->
  (forall l m mu, In (l, m) tau -> is_part (n - 1) mu -> contained mu l -> exists k, In (mu, k) sg /\ columns_used tau mu <= k) ->
  exists R, sv_up tau v = Ret R /\ vec_of tau R /\
    forall pre l m post, tau = pre ++ (l, m) :: post -> exists P, nth_error R (length pre) = Some P /\
      forall t j x, at_tableau P t j x <-> 0 <= j < m /\ standard l t /\ exists Q, In Q v /\ at_tableau Q (erase n t) (columns_used pre (io_lambda (sp_irr Q)) + j) x.
Proof.
  intros Hn T Hm V Sp Sn Hc. destruct (vec_good (n - 1) sg v) as (Vg & Vk & Vf); auto; [lia|]. 
  assert (forall p, In p tau -> is_part n (fst p)) as Tp by (intros p Hp; destruct T as (_ & T); rewrite Forall_forall in T; apply T, in_map; auto).
  destruct (up_pure n tau v T Hm Hn Vg) as (R & ER & F).
  { intros l m mu I J. apply (subs_in n) in J as (J1 & J2); [|apply (Tp _ I)|lia]. destruct (Hc l m mu I J1 J2) as (k & K1 & K2). destruct (Vf mu k K1) as (F1 & F2 & F3). rewrite F3. split; auto. rewrite <- F2. apply in_map; auto. }
  exists R. split; [auto|]. split.
  - unfold vec_of. rewrite <- (befores_snd p0 tau). apply Forall2_map_l. eapply Forall2_mono; [|exact F]. intros q P Hq (U1 & U2 & U3 & _). cbn beta.
    assert (In (snd q) tau) as I by (rewrite <- (befores_snd p0 tau); apply in_map; auto). apply (good_part n); auto. lia.
  - intros pre l m post E. destruct (Forall2_nth_l _ _ _ (length pre) (pre, (l, m)) F) as (P & EP & U1 & U2 & U3 & U4); [rewrite E; apply befores_at|].
    exists P. split; [auto|]. cbn [fst snd] in *. assert (In (l, m) tau) as I by (rewrite E; apply in_app_iff; right; left; auto). pose proof (Tp _ I) as Hl. cbn [fst] in Hl.
    assert (forall r, In r (corners l) -> In (vfind v (prem l r)) v /\ key (vfind v (prem l r)) = prem l r /\ columns_used tau (prem l r) <= m_n1 (sp_mat (vfind v (prem l r)))) as VV.
    { intros r Hr. assert (In (prem l r) (map (prem l) (corners l))) as Hs by (apply in_map; auto). apply (subs_in n) in Hs as (S1 & S2); [|auto|lia].
      destruct (Hc l m _ I S1 S2) as (k & K1 & K2). destruct (Vf _ k K1) as (F1 & F2 & F3). rewrite F3. auto. }
    assert (forall r, In r (corners l) -> columns_used pre (prem l r) + m <= columns_used tau (prem l r)) as CU.
    { intros r Hr. rewrite E, used_app. change ((l, m) :: post) with ([] ++ [(l, m)] ++ post). rewrite app_assoc, used_app, used_snoc. cbn [fst snd].
      rewrite (fits_inb n l (prem l r)), (proj2 (inb_iff _ _)); [|apply in_map; auto|auto|lia|eapply corner_part; eauto].
      assert (0 <= columns_used post (prem l r)) by (apply used_nonneg; intros p Hp'; apply Hm; rewrite E; apply in_app_iff; right; right; auto).
      change (columns_used [] (prem l r)) with 0. lia. }
    assert (forall mu, 0 <= columns_used pre mu) as CP by (intros mu; apply used_nonneg; intros p Hp'; apply Hm; rewrite E; apply in_app_iff; left; auto).
    intros t j x. rewrite at_iff, U3, U1. split.
    + intros (Hj & i & Hi & Ht & Hx). split; [auto|]. destruct (mkirr_ok n l Hl ltac:(lia)) as (_ & G). split; [rewrite <- Ht; apply (tb_standard n l); auto|].
      destruct (boff_find n l i Hl Hn Hi) as (r & a & Hr & Ha & ->). destruct (VV r Hr) as (V1 & V2 & V3). exists (vfind v (prem l r)). split; [auto|].
      destruct Vg as (Vg & _). destruct (Vg _ V1) as (X1 & X2 & X3 & X4). rewrite V2 in X1, X2, X3. fold (key (vfind v (prem l r))). rewrite V2. apply at_iff. split.
      * specialize (CU r Hr). specialize (CP (prem l r)). lia.
      * exists a. rewrite X2. split; [exact Ha|]. split; [rewrite <- Ht; symmetry; apply erase_block; auto|]. rewrite <- Hx. symmetry. apply U4; auto.
    + intros (Hj & St & Q & HQ & HA). split; [auto|]. destruct (tabs_row n l t Hl ltac:(lia) St) as (i & Hi & Ht). exists i. split; [auto|]. split; [auto|].
      destruct (boff_find n l i Hl Hn Hi) as (r & a & Hr & Ha & ->). destruct (VV r Hr) as (V1 & V2 & V3). apply at_iff in HA as (Hc2 & a' & Ha' & Et & Ex).
      destruct Vg as (Vg & Vn). destruct (Vg _ HQ) as (X1 & X2 & X3 & X4). rewrite <- Ht, erase_block in Et by auto. rewrite X2 in Ha', Et. fold (key Q) in *.
      assert (is_part (n - 1) (prem l r)) as Pr by (eapply corner_part; eauto).
      assert (key Q = prem l r) as KQ by (eapply (shape_det (n - 1)); eauto; lia). rewrite KQ in *.
      apply (tb_inj (n - 1)) in Et; auto; [|lia]. subst a'. rewrite U4 by auto. rewrite <- KQ, vfind_in by auto. rewrite KQ. exact Ex.
Qed.
