(* Representation matrices: entries, products, orthogonality. *)
From Coq Require Import ZArith List Bool Lia ZifyBool ZifyNat Reals Lra.
From Verif Require Import Model_Base Model_Perm Model_Part Model_Comb Model_Tab Model_Irrep.
From Verif Require Import Spec_Perm Spec_Part Spec_Tab Spec_Rep.
From Verif Require Import Proof_Base Proof_Perm Proof_Part Proof_Tab Proof_TabProps Proof_Cycles Proof_Cox Proof_Yor Proof_Sum Proof_Irrep Proof_Rep.
Import ListNotations.
Open Scope Z_scope.

Lemma aw_TT_ext w : forall f g, (forall t, f t = g t) -> forall t, aw TT w f t = aw TT w g t.
Proof.
  induction w as [|j w IH]; intros f g H t; [apply H|]. rewrite !aw_cons. apply IH. intros u. unfold TT. rewrite !H. reflexivity.
Qed.

Lemma aw_TT_lin {K} (L : list K) (c : K -> R) w : forall (F : K -> list (list Z) -> R) t,
  aw TT w (fun t => lsum L (fun k => (c k * F k t)%R)) t = lsum L (fun k => (c k * aw TT w (F k) t)%R).
Proof.
  induction w as [|j w IH]; intros F t; [reflexivity|]. rewrite aw_cons.
  rewrite (aw_TT_ext w _ (fun t => lsum L (fun k => (c k * TT j (F k) t)%R))).
  - rewrite (IH (fun k => TT j (F k))). reflexivity.
  - intros u. unfold TT. rewrite <- !lsum_scal, <- lsum_plus. apply lsum_ext. intros k _. ring.
Qed.

Section Rho.
  Variables (n : Z) (l : list Z) (o : irr).
  Hypothesis G : good n l o.

  Definition rho (p : list Z) (i j : Z) : R := Phi n p (fcol o (fun k => delta k j)) (tb o i).

  Lemma Phi_sum p f i : is_perm n p -> 0 <= i < io_d o -> Phi n p (fcol o f) (tb o i) = rsum (io_d o) (fun k => (rho p i k * f k)%R).
  Proof.
    intros P Hi. rewrite (Phi_eqS n l p (fcol o f) (fun t => lsum (zrange 0 (io_d o)) (fun k => (f k * fcol o (fun r => delta r k) t)%R))); auto.
    - unfold Phi. rewrite aw_TT_lin. rewrite rsum_lsum. apply lsum_ext. intros k _. apply Rmult_comm.
    - apply G.
    - intros t St. destruct (pos_standard n l o t G St) as (B & _). unfold fcol.
      rewrite <- rsum_lsum. rewrite (rsum_ext _ _ (fun k => (f k * delta k (pos o t))%R)).
      + rewrite rsum_delta; auto.
      + intros k Hk. f_equal. unfold delta. destruct (Z.eq_dec (pos o t) k), (Z.eq_dec k (pos o t)); congruence.
    - eapply tb_standard; eauto.
  Qed.

  Lemma rho_mul p q i j : is_perm n p -> is_perm n q -> 0 <= i < io_d o -> rho (pmul p q) i j = mprod (io_d o) (rho p) (rho q) i j.
  Proof.
    intros P Q Hi. unfold rho at 1. rewrite (Phi_mul n l p q) by (first [apply G | eapply tb_standard; eauto | auto]).
    rewrite (Phi_eqS n l p _ (fcol o (fun k => rho q k j))); auto; [apply Phi_sum; auto|apply G| |eapply tb_standard; eauto].
    apply eqS_sym. apply (fcol_eqS n l o G). intros k Hk. reflexivity.
  Qed.

  Lemma rho_id i j : 0 <= i < io_d o -> rho (pid n) i j = delta i j.
  Proof. intros Hi. unfold rho. rewrite Phi_id by (pose proof (proj1 (proj2 G)); lia). unfold fcol. rewrite (pos_tb n l o i G Hi). reflexivity. Qed.

  (* the generators are symmetric *)
  Lemma TT_sym tau f g : 1 <= tau < n ->
    rsum (io_d o) (fun i => (TT tau (fcol o f) (tb o i) * g i)%R) = rsum (io_d o) (fun i => (f i * TT tau (fcol o g) (tb o i))%R).
  Proof.
    intros Ht. set (z := fun i => del tau (tb o i)). set (pt := ptn o tau).
    assert (forall f i, 0 <= i < io_d o -> TT tau (fcol o f) (tb o i) = (Dd (z i) * f i + Sd (z i) * f (pt i))%R) as E.
    { intros h i Hi. change (TT tau (fcol o h) (tb o i)) with (col' o tau h i). unfold z, pt. destruct (adj (del tau (tb o i))) eqn:A.
      - rewrite (col_adj n l) by auto. rewrite Sd_1 by (unfold adj in A; lia). rewrite Dd_adj by auto. ring.
      - rewrite (col_pair n l) by auto. reflexivity. }
    rewrite (rsum_ext _ _ (fun i => (Dd (z i) * f i * g i + Sd (z i) * f (pt i) * g i)%R)) by (intros i Hi; rewrite E by auto; ring).
    rewrite (rsum_ext _ (fun i => (f i * _)%R) (fun i => (Dd (z i) * f i * g i + Sd (z i) * f i * g (pt i))%R)) by (intros i Hi; rewrite E by auto; ring).
    rewrite !rsum_lsum, !lsum_plus. f_equal.
    rewrite <- (lsum_reindex (zrange 0 (io_d o)) pt (fun i => (Sd (z i) * f (pt i) * g i)%R)).
    - apply lsum_ext. intros i Hi. apply in_zrange in Hi. unfold pt. rewrite (ptn_ptn n l) by auto. fold pt.
      replace (Sd (z (pt i))) with (Sd (z i)); [ring|]. unfold z, pt. destruct (adj (del tau (tb o i))) eqn:A.
      + unfold ptn. rewrite A. reflexivity.
      + rewrite (del_ptn n l) by auto. rewrite Sd_opp. reflexivity.
    - apply NoDup_zrange.
    - intros i Hi. apply in_zrange in Hi. apply in_zrange. eapply ptn_range; eauto.
    - intros i j Hi Hj Eij. apply in_zrange in Hi, Hj. rewrite <- (ptn_ptn n l o tau G Ht i Hi), <- (ptn_ptn n l o tau G Ht j Hj). unfold pt in Eij. rewrite Eij. reflexivity.
  Qed.

  Lemma TT_isom tau f g : 1 <= tau < n ->
    rsum (io_d o) (fun i => (TT tau (fcol o f) (tb o i) * TT tau (fcol o g) (tb o i))%R) = rsum (io_d o) (fun i => (f i * g i)%R).
  Proof.
    intros Ht. rewrite (TT_sym tau f (fun i => TT tau (fcol o g) (tb o i)) Ht). apply rsum_ext. intros i Hi. f_equal.
    assert (standard l (tb o i)) as St by (eapply tb_standard; eauto). assert (is_part n l) as P by apply G.
    rewrite (TT_eqS n l tau _ (TT tau (fcol o g)) P Ht); auto.
    - rewrite (TT_invol n); auto; [unfold fcol; rewrite (pos_tb n l); auto|apply (standard_fill n l); auto|apply (del_nz n l); auto].
    - apply (fcol_eqS n l o G). intros k Hk. reflexivity.
  Qed.

  Lemma aw_isom w : (forall j, In j w -> 1 <= j < n) -> forall f g,
    rsum (io_d o) (fun i => (aw TT w (fcol o f) (tb o i) * aw TT w (fcol o g) (tb o i))%R) = rsum (io_d o) (fun i => (f i * g i)%R).
  Proof.
    induction w as [|j w IH]; intros Hw f g.
    - apply rsum_ext. intros i Hi. unfold aw; cbn [fold_left]. rewrite !(fcol_tb n l o G) by auto. reflexivity.
    - rewrite <- (TT_isom j f g) by (apply Hw; left; auto). rewrite <- (IH ltac:(intros; apply Hw; right; auto) (fun i => TT j (fcol o f) (tb o i)) (fun i => TT j (fcol o g) (tb o i))).
      apply rsum_ext. intros i Hi. rewrite !aw_cons.
      assert (forall h, aw TT w (TT j (fcol o h)) (tb o i) = aw TT w (fcol o (fun i => TT j (fcol o h) (tb o i))) (tb o i)) as K.
      { intros h. apply (aw_eqv (eqS l) (fun _ => True) TT n); auto; [apply cox_TT; apply G|intros; apply Hw; right; auto| |eapply tb_standard; eauto].
        apply eqS_sym. apply (fcol_eqS n l o G). intros k Hk. reflexivity. }
      rewrite !K. reflexivity.
  Qed.

  (* the columns of rho are orthonormal *)
  Lemma rho_orth p i j : is_perm n p -> 0 <= i < io_d o -> 0 <= j < io_d o -> rsum (io_d o) (fun k => (rho p k i * rho p k j)%R) = delta i j.
  Proof.
    intros P Hi Hj. unfold rho, Phi. rewrite aw_isom by (intros; eapply pword_in; eauto).
    rewrite (rsum_ext _ _ (fun k => (delta k j * delta k i)%R)) by (intros; ring). rewrite rsum_delta; auto.
  Qed.

  (* a left inverse of a family of products is unique: rho(p^-1) is the transpose *)
  Lemma rho_inv p i j : is_perm n p -> 0 <= i < io_d o -> 0 <= j < io_d o -> rho (pinv p) i j = rho p j i.
  Proof.
    intros P Hi Hj. pose proof (is_perm_len _ _ P) as Lp. assert (is_perm n (pinv p)) as Pi by (apply is_perm_pinv; auto).
    (* rho p^-1 i j = sum_k delta i k rho p^-1 k j = sum_k sum_m rho p m i rho p m k rho p^-1 k j = sum_m rho p m i delta m j *)
    rewrite <- (rsum_delta (io_d o) (fun k => rho (pinv p) k j) i Hi).
    rewrite (rsum_ext _ _ (fun k => rsum (io_d o) (fun m => (rho p m i * (rho p m k * rho (pinv p) k j))%R))).
    2:{ intros k Hk. rewrite <- (rho_orth p k i P Hk Hi). rewrite !rsum_lsum, <- lsum_scal. apply lsum_ext. intros m _. ring. }
    rewrite rsum_lsum. rewrite (lsum_ext _ _ (fun k => lsum (zrange 0 (io_d o)) (fun m => (rho p m i * (rho p m k * rho (pinv p) k j))%R))) by (intros; apply rsum_lsum).
    rewrite lsum_swap. rewrite (lsum_ext _ _ (fun m => (rho p m i * delta m j)%R)).
    - rewrite <- rsum_lsum. rewrite rsum_delta; auto.
    - intros m Hm. apply in_zrange in Hm. rewrite lsum_scal. f_equal. rewrite <- rsum_lsum. change (mprod (io_d o) (rho p) (rho (pinv p)) m j = delta m j).
      rewrite <- rho_mul by auto. rewrite (pmul_pinv_r n) by auto. apply rho_id; auto.
  Qed.

  Lemma rho_orth_row p i j : is_perm n p -> 0 <= i < io_d o -> 0 <= j < io_d o -> rsum (io_d o) (fun k => (rho p i k * rho p j k)%R) = delta i j.
  Proof.
    intros P Hi Hj. assert (is_perm n (pinv p)) as Pi by (apply is_perm_pinv; auto). rewrite <- (rho_orth (pinv p) i j Pi Hi Hj). apply rsum_ext.
    intros k Hk. rewrite !rho_inv by auto. reflexivity.
  Qed.
End Rho.

(* ---- the matrix actions of the model ---- *)

Section Mat.
  Variables (n : Z) (l : list Z) (o : irr).
  Hypothesis G : good n l o.

  Lemma acts_block beg e m : 0 <= beg -> e <= m ->
    acts n o (fun tau => irr_apply_block o tau beg e) (fun A => m_n0 A = io_d o /\ m_n1 A = m) (fun A j i => m_at A i j) (incols beg e).
  Proof.
    intros Hb He tau A Ht (N0 & N1). destruct (apply_block_ok n l o tau G Ht beg e A) as (A' & E & M0 & M1 & V); [auto|auto|lia|].
    exists A'. split; auto. split; [split; congruence|]. intros j i Hi. rewrite V by auto. reflexivity.
  Qed.

  Lemma acts_mat m : 0 <= m -> acts n o (irr_apply o) (fun A => m_n0 A = io_d o /\ m_n1 A = m) (fun A j i => m_at A i j) (incols 0 m).
  Proof.
    intros Hm tau A Ht (N0 & N1). unfold irr_apply. rewrite N1. apply (acts_block 0 m m); auto; lia.
  Qed.

  Lemma incols_in beg e j : beg <= j < e -> incols beg e j = true.
  Proof. unfold incols. lia. Qed.

  (* the result of an action of the permutation p on A *)
  Definition moved (p : list Z) (A : mat) (r : outcome mat) : Prop :=
    exists A', r = Ret A' /\ m_n0 A' = io_d o /\ m_n1 A' = m_n1 A /\ agree (io_d o) (m_n1 A) (m_at A') (mprod (io_d o) (rho n o p) (m_at A)).

  Lemma moved_of p A r : is_perm n p ->
    (exists A', r = Ret A' /\ (m_n0 A' = io_d o /\ m_n1 A' = m_n1 A) /\
      forall c i, 0 <= i < io_d o -> m_at A' i c = if incols 0 (m_n1 A) c then Phi n p (fcol o (fun i => m_at A i c)) (tb o i) else m_at A i c) ->
    moved p A r.
  Proof.
    intros P (A' & E & (M0 & M1) & V). exists A'. split; auto. split; auto. split; auto. intros i j Hi Hj. rewrite V by auto.
    rewrite incols_in by auto. apply (Phi_sum n l o G); auto.
  Qed.

  Lemma apply_perm_ok p A : is_perm n p -> m_n0 A = io_d o -> 0 <= m_n1 A -> moved p A (irr_apply_perm o p A).
  Proof.
    intros P N0 N1. apply moved_of; auto. unfold irr_apply_perm. replace (io_n o) with n by (symmetry; apply G).
    destruct (acts_perm n l o G _ _ _ _ (acts_mat (m_n1 A) N1) p A P (conj N0 eq_refl)) as (A' & E & O & V). exists A'. split; [exact E|]. split; auto.
  Qed.

  Lemma apply_cycle_ok a b A : 1 <= a <= n -> 1 <= b <= n -> m_n0 A = io_d o -> 0 <= m_n1 A -> moved (pcyc n a b) A (act_cycle (irr_apply o) (mkCyc a b) A).
  Proof.
    intros Ha Hb N0 N1. apply moved_of; [apply is_perm_pcyc; auto|].
    destruct (acts_cycle n l o G _ _ _ _ (acts_mat (m_n1 A) N1) a b A Ha Hb (conj N0 eq_refl)) as (A' & E & O & V). exists A'. split; [exact E|]. split; auto.
  Qed.

  Lemma apply_cycle_inv_ok a b A : 1 <= a -> a <= b -> b <= n -> m_n0 A = io_d o -> 0 <= m_n1 A -> moved (pcyc n b a) A (act_cycle_inv (irr_apply o) (mkCyc a b) A).
  Proof.
    intros Ha Hb Hn N0 N1. apply moved_of; [apply is_perm_pcyc; lia|].
    destruct (acts_cycle_inv n l o G _ _ _ _ (acts_mat (m_n1 A) N1) a b A Ha Hb Hn (conj N0 eq_refl)) as (A' & E & O & V). exists A'. split; [exact E|]. split; auto.
  Qed.

  Lemma apply_transp_ok a b A : 1 <= a <= n -> 1 <= b <= n -> m_n0 A = io_d o -> 0 <= m_n1 A -> moved (ptransp n a b) A (act_transp (irr_apply o) (mkTransp a b) A).
  Proof.
    intros Ha Hb N0 N1. apply moved_of; [apply is_perm_ptransp; auto|].
    destruct (acts_transp n l o G _ _ _ _ (acts_mat (m_n1 A) N1) a b A Ha Hb (conj N0 eq_refl)) as (A' & E & O & V). exists A'. split; [exact E|]. split; auto.
  Qed.

  Lemma apply_tau_ok tau A : 1 <= tau < n -> m_n0 A = io_d o -> 0 <= m_n1 A -> moved (ptransp n tau (tau + 1)) A (irr_apply o tau A).
  Proof.
    intros Ht N0 N1. destruct (apply_cycle_ok tau (tau + 1) A) as (A' & E & K); auto; try lia.
    assert (pcyc n tau (tau + 1) = ptransp n tau (tau + 1)) as Ep.
    { apply (perm_ext n); [apply is_perm_len; apply is_perm_pcyc; lia|apply is_perm_len; apply is_perm_ptransp; lia|].
      intros i Hi. rewrite img_pcyc, img_ptransp by lia. unfold cfun, tfun. zc. }
    rewrite Ep in K. exists A'. split; auto. rewrite <- E. unfold act_cycle, zford. cbn [cy_a cy_b]. destruct (Z.ltb_spec tau (tau + 1)); [|lia].
    replace (tau + 1 - 1 + 1) with (tau + 1) by lia. replace (zrange tau (tau + 1)) with [tau] by (rewrite zrange_snoc, zrange_nil by lia; reflexivity). cbn [rev app foldM]. destruct (irr_apply o tau A); reflexivity.
  Qed.

  Lemma matrix_ok p : is_perm n p -> exists M, irr_matrix o p = Ret M /\ m_n0 M = io_d o /\ m_n1 M = io_d o /\ agree (io_d o) (io_d o) (m_at M) (rho n o p).
  Proof.
    intros P. pose proof (zlen_nonneg (io_tabs o)) as Hd. fold (io_d o) in Hd.
    destruct (apply_perm_ok p (mident (io_d o)) P eq_refl Hd) as (M & E & N0 & N1 & V). exists M. split; auto. split; auto. split; auto.
    intros i j Hi Hj. rewrite V by auto. unfold mprod. rewrite (rsum_ext _ _ (fun k => (rho n o p i k * delta k j)%R)).
    - rewrite rsum_delta; auto.
    - intros k Hk. f_equal. cbn. unfold delta. destruct (Z.eqb_spec k j), (Z.eq_dec k j); auto; contradiction.
  Qed.
End Mat.
