(* SnVec: the action of the group. *)
From Coq Require Import ZArith List Bool Lia Reals Lra Sorting.Sorted Permutation.
From Verif Require Import Model_Base Model_Perm Model_Sn Model_Part Model_Comb Model_Tab Model_Irrep Model_Type Model_FFT Model_Vec.
From Verif Require Import Spec_Perm Spec_Part Spec_Tab Spec_Rep Spec_Four Spec_Type Spec_FFT Spec_Vec.
From Verif Require Import Proof_Base Proof_Perm Proof_Sn Proof_Part Proof_PartProps Proof_Tab Proof_TabProps Proof_Cycles Proof_Cox Proof_Yor Proof_Sum Proof_Irrep Proof_Rep Proof_Mat Proof_IrrepProps Proof_JM Proof_Conn Proof_Schur Proof_Restr Proof_UpDown Proof_Complete Proof_CharBank Proof_Type Proof_FFTmath Proof_FFTlay Proof_FFTlay2 Proof_FFTblk Proof_FFTstep Proof_Vec Proof_Vec2 Proof_Vec3 Proof_Vec4 Proof_Vec5.
Import ListNotations.
Open Scope Z_scope.

(* Q' is Q moved by p *)
Definition vmoved (n : Z) (p : list Z) (Q Q' : spart) : Prop :=
  sp_irr Q' = sp_irr Q /\ m_n0 (sp_mat Q') = m_n0 (sp_mat Q) /\ m_n1 (sp_mat Q') = m_n1 (sp_mat Q) /\
  agree (m_n0 (sp_mat Q)) (m_n1 (sp_mat Q)) (m_at (sp_mat Q')) (mprod (io_d (mkirr n (key Q))) (rr n (key Q) p) (m_at (sp_mat Q))).

Lemma apply_with n p (act : spart -> outcome mat) v : (forall Q, In Q v -> pgood n Q /\ moved n (sp_irr Q) p (sp_mat Q) (act Q)) ->
  exists v', foldM (fun P R => A <- act P ;; Ret (R ++ [mkSpart (sp_irr P) A])) v [] = Ret v' /\ Forall2 (vmoved n p) v v'.
Proof.
  intros H.
  assert (forall acc, exists v', foldM (fun P R => A <- act P ;; Ret (R ++ [mkSpart (sp_irr P) A])) v acc = Ret (acc ++ v') /\ Forall2 (vmoved n p) v v') as K; [|apply (K [])].
  induction v as [|Q v IH]; intros acc; cbn [foldM]; [exists []; rewrite app_nil_r; split; constructor|].
  destruct (H Q (or_introl eq_refl)) as ((G1 & G2 & G3 & G4) & A & E & N0 & N1 & V). rewrite E. cbn [bind].
  destruct (IH (fun X HX => H X (or_intror HX)) (acc ++ [mkSpart (sp_irr Q) A])) as (v' & E' & F). exists (mkSpart (sp_irr Q) A :: v'). rewrite E', <- app_assoc. split; [reflexivity|]. constructor; [|auto].
  rewrite G2 in N0, V. split; [auto|]. cbn [sp_mat]. split; [congruence|]. split; [auto|]. rewrite G3. exact V.
Qed.

Lemma apply_pure n p v : 1 <= n -> is_perm n p -> (forall Q, In Q v -> pgood n Q) -> exists v', sv_apply p v = Ret v' /\ Forall2 (vmoved n p) v v'.
Proof.
  intros Hn Hp H. apply (apply_with n p (fun P => irr_apply_perm (sp_irr P) p (sp_mat P))). intros Q HQ. split; [auto|]. destruct (H Q HQ) as (G1 & G2 & G3 & G4).
  destruct (mkirr_ok n (key Q) G1 Hn) as (_ & G). rewrite G2. apply (apply_perm_ok n (key Q) _ G); auto.
Qed.

Lemma vmoved_good n p Q Q' : pgood n Q -> vmoved n p Q Q' -> pgood n Q'.
Proof. intros (G1 & G2 & G3 & G4) (E1 & E2 & E3 & _). assert (key Q' = key Q) as K by (unfold key; rewrite E1; auto). unfold pgood. rewrite K. split; [auto|]. split; [congruence|]. split; [congruence|lia]. Qed.

Lemma vec_pgood n tau v : 1 <= n -> (forall p, In p tau -> is_part n (fst p)) -> vec_of tau v -> forall Q, In Q v -> pgood n Q.
Proof. intros Hn Tp V Q HQ. destruct (vec_parts n tau v Hn Tp V Q HQ) as (l & m & _ & Hl & K). apply (part_pgood n l m Q Hl Hn K). Qed.

Lemma vmoved_vec n p tau v v' : 1 <= n -> (forall p, In p tau -> is_part n (fst p)) -> vec_of tau v -> Forall2 (vmoved n p) v v' -> vec_of tau v'.
Proof.
  intros Hn Tp V. revert v'. induction V as [|q Q tau v H V IH]; intros v' F; inversion F as [|? Q' ? v2 M F2]; subst; constructor; [|apply IH; auto; intros; apply Tp; right; auto].
  destruct H as (H1 & H2 & H3 & H4). destruct M as (E1 & E2 & E3 & _). split; [congruence|]. split; [congruence|]. split; [congruence|auto].
Qed.

Lemma vmoved_same n p Q A B : vmoved n p Q A -> vmoved n p Q B -> same_part A B.
Proof.
  intros (A1 & A2 & A3 & A4) (B1 & B2 & B3 & B4). split; [congruence|]. split; [congruence|]. split; [congruence|]. intros i j Hi Hj. rewrite A2 in Hi. rewrite A3 in Hj. rewrite A4, B4; auto.
Qed.

Lemma Forall2_comp {A B C} (R : A -> B -> Prop) (S : A -> C -> Prop) (T : B -> C -> Prop) l a b : (forall x y z, In x l -> R x y -> S x z -> T y z) -> Forall2 R l a -> Forall2 S l b -> Forall2 T a b.
Proof.
  intros H F. revert b. induction F as [|x y l a H1 F IH]; intros b G; inversion G; subst; constructor; [eapply H; [left; auto| |]; eauto|]. apply IH; auto. intros; eapply H; [right; auto| |]; eauto.
Qed.

Lemma Forall2_trans {A B C} (R : A -> B -> Prop) (S : B -> C -> Prop) (T : A -> C -> Prop) l a b : (forall x y z, In x l -> R x y -> S y z -> T x z) -> Forall2 R l a -> Forall2 S a b -> Forall2 T l b.
Proof.
  intros H F. revert b. induction F as [|x y l a H1 F IH]; intros b G; inversion G; subst; constructor; [eapply H; [left; auto| |]; eauto|]. apply IH; auto. intros; eapply H; [right; auto| |]; eauto.
Qed.

(* the three ways to apply, and the group laws *)
Theorem apply_vec n tau v p : 1 <= n -> type_of n tau -> vec_of tau v -> is_perm n p ->
  exists v', sv_apply p v = Ret v' /\ vec_of tau v' /\ Forall2 (fun Q Q' => exists M, irr_matrix (sp_irr Q) p = Ret M /\
    agree (io_d (sp_irr Q)) (m_n1 (sp_mat Q)) (m_at (sp_mat Q')) (mprod (io_d (sp_irr Q)) (m_at M) (m_at (sp_mat Q)))) v v'.
Proof.
  intros Hn T V Hp. assert (forall p, In p tau -> is_part n (fst p)) as Tp by (intros q Hq; destruct T as (_ & F); rewrite Forall_forall in F; apply F, in_map; auto).
  pose proof (vec_pgood n tau v Hn Tp V) as Vg. destruct (apply_pure n p v Hn Hp Vg) as (v' & E & F). exists v'. split; [auto|]. split; [eapply vmoved_vec; eauto|].
  eapply Forall2_mono; [|exact F]. intros Q Q' HQ (E1 & E2 & E3 & E4). destruct (Vg Q HQ) as (G1 & G2 & G3 & G4). destruct (mkirr_ok n (key Q) G1 Hn) as (_ & G). rewrite G2.
  destruct (matrix_ok n (key Q) _ G p Hp) as (M & EM & M0 & M1 & VM). exists M. split; [auto|]. rewrite G3 in E4. apply (agree_trans _ _ _ _ _ E4). apply mprod_ext; [apply agree_sym; auto|intros i j _ _; reflexivity].
Qed.

Lemma rsum_delta_l d (f : Z -> R) i : 0 <= i < d -> rsum d (fun k => (delta i k * f k)%R) = f i.
Proof.
  intros H. rewrite <- (rsum_delta d f i H). apply rsum_ext. intros k _. unfold delta. destruct (Z.eq_dec i k), (Z.eq_dec k i); try congruence; ring.
Qed.

Lemma mprod_assoc d A B C i j : mprod d (mprod d A B) C i j = mprod d A (mprod d B C) i j.
Proof.
  unfold mprod. rewrite (rsum_ext d (fun k => (rsum d (fun k' => (A i k' * B k' k)%R) * C k j)%R) (fun k => rsum d (fun k' => (A i k' * (B k' k * C k j))%R))).
  - rewrite rsum_swap. apply rsum_ext. intros k _. rewrite rsum_scal. reflexivity.
  - intros k _. rewrite <- rsum_scal_r. apply rsum_ext. intros. ring.
Qed.

Lemma vmoved_id n Q Q' : 1 <= n -> pgood n Q -> vmoved n (pid n) Q Q' -> same_part Q' Q.
Proof.
  intros Hn (G1 & G2 & G3 & G4) (E1 & E2 & E3 & E4). split; [auto|]. split; [auto|]. split; [auto|]. intros i j Hi Hj. rewrite E2, ?E3 in *. rewrite E4 by auto.
  destruct (mkirr_ok n (key Q) G1 Hn) as (_ & G). unfold mprod. rewrite (rsum_ext _ _ (fun k => (delta i k * m_at (sp_mat Q) k j)%R)).
  - rewrite rsum_delta_l; [reflexivity|]. rewrite <- G3. auto.
  - intros k Hk. f_equal. apply (rho_id n (key Q) _ G). rewrite <- G3. auto.
Qed.

Lemma vmoved_mul n a b Q Q1 Q2 Q3 : 1 <= n -> pgood n Q -> is_perm n a -> is_perm n b -> vmoved n b Q Q1 -> vmoved n a Q1 Q2 -> vmoved n (pmul a b) Q Q3 -> same_part Q2 Q3.
Proof.
  intros Hn (G1 & G2 & G3 & G4) Ha Hb (E1 & E2 & E3 & E4) (F1 & F2 & F3 & F4) (H1 & H2 & H3 & H4). assert (key Q1 = key Q) as K by (unfold key; rewrite E1; auto). rewrite K in *.
  split; [congruence|]. split; [congruence|]. split; [congruence|]. destruct (mkirr_ok n (key Q) G1 Hn) as (_ & G). intros i j Hi Hj. rewrite F2, E2 in Hi. rewrite F3, E3 in Hj.
  rewrite F4 by congruence. rewrite H4 by auto. unfold mprod at 1. rewrite (rsum_ext _ _ (fun k => (rr n (key Q) a i k * mprod (io_d (mkirr n (key Q))) (rr n (key Q) b) (m_at (sp_mat Q)) k j)%R)).
  2:{ intros k Hk. f_equal. apply E4; [rewrite G3; auto|auto]. }
  fold (mprod (io_d (mkirr n (key Q))) (rr n (key Q) a) (mprod (io_d (mkirr n (key Q))) (rr n (key Q) b) (m_at (sp_mat Q))) i j).
  rewrite <- mprod_assoc. unfold mprod at 1 3. apply rsum_ext. intros k Hk. f_equal. symmetry. apply (rho_mul n (key Q) _ G); auto. rewrite <- G3. auto.
Qed.

Lemma tau_parts n tau : type_of n tau -> forall p, In p tau -> is_part n (fst p).
Proof. intros (_ & F) q Hq. rewrite Forall_forall in F. apply F, in_map; auto. Qed.

Theorem apply_identity n tau v e : 1 <= n -> type_of n tau -> vec_of tau v -> is_identity n e -> exists v', sv_apply e v = Ret v' /\ Forall2 same_part v' v.
Proof.
  intros Hn T V He. pose proof (vec_pgood n tau v Hn (tau_parts n tau T) V) as Vg. destruct (apply_pure n e v Hn (proj1 He) Vg) as (v' & E & F). exists v'. split; [auto|].
  rewrite (is_identity_pid n e He) in F. clear - F Vg Hn. induction F as [|Q Q' v v' M F IH]; constructor; [apply (vmoved_id n); auto; apply Vg; left; auto|]. apply IH. intros; apply Vg; right; auto.
Qed.

Theorem apply_product n tau v a b c : 1 <= n -> type_of n tau -> vec_of tau v -> is_perm n a -> is_perm n b -> is_mult n a b c ->
  exists vb vab vc, sv_apply b v = Ret vb /\ sv_apply a vb = Ret vab /\ sv_apply c v = Ret vc /\ Forall2 same_part vab vc.
Proof.
  intros Hn T V Ha Hb Hc. pose proof (vec_pgood n tau v Hn (tau_parts n tau T) V) as Vg.
  rewrite (is_mult_pmul n a b c Ha Hb Hc). assert (is_perm n (pmul a b)) as Hab by (apply is_perm_pmul; auto).
  destruct (apply_pure n b v Hn Hb Vg) as (vb & Eb & Fb).
  destruct (apply_pure n a vb Hn Ha) as (vab & Eab & Fab). { intros Q' HQ'. destruct (Forall2_in_r _ _ _ _ Fb HQ') as (Q & HQ & M). eapply vmoved_good; eauto. }
  destruct (apply_pure n (pmul a b) v Hn Hab Vg) as (vc & Ec & Fc). exists vb, vab, vc. split; [auto|]. split; [auto|]. split; [auto|].
  assert (Forall2 (fun Q Q2 => exists Q1, vmoved n b Q Q1 /\ vmoved n a Q1 Q2) v vab) as FF by (eapply Forall2_trans; [|exact Fb|exact Fab]; eauto).
  eapply Forall2_comp; [|exact FF|exact Fc]. intros Q Q2 Q3 HQ (Q1 & M1 & M2) M3. eapply (vmoved_mul n a b Q); eauto.
Qed.

Theorem apply_wrong_size n tau v p : 1 <= n -> type_of n tau -> vec_of tau v -> v <> [] -> zlen p <> n -> sv_apply p v = Abort.
Proof.
  intros Hn T V Hv Hp. destruct v as [|Q v]; [congruence|]. pose proof (vec_pgood n tau (Q :: v) Hn (tau_parts n tau T) V Q (or_introl eq_refl)) as (G1 & G2 & _).
  unfold sv_apply. cbn [foldM]. destruct (mkirr_ok n (key Q) G1 Hn) as (E & _). rewrite G2, (wrong_size_aborts n (key Q) (mkirr n (key Q)) p) by auto. reflexivity.
Qed.

Theorem apply_cycle_vec n tau v a b : 1 <= n -> type_of n tau -> vec_of tau v -> 1 <= a <= n -> 1 <= b <= n ->
  exists c v1 v2, p_contiguous_cycle n a b = Ret c /\ sv_apply_cycle (mkCyc a b) v = Ret v1 /\ sv_apply c v = Ret v2 /\ Forall2 same_part v1 v2.
Proof.
  intros Hn T V Ha Hb. pose proof (vec_pgood n tau v Hn (tau_parts n tau T) V) as Vg. pose proof (is_perm_pcyc n a b Ha Hb) as Hc.
  destruct (apply_pure n _ v Hn Hc Vg) as (v2 & E2 & F2).
  destruct (apply_with n (pcyc n a b) (fun P => act_cycle (irr_apply (sp_irr P)) (mkCyc a b) (sp_mat P)) v) as (v1 & E1 & F1).
  { intros Q HQ. split; [auto|]. destruct (Vg Q HQ) as (G1 & G2 & G3 & G4). destruct (mkirr_ok n (key Q) G1 Hn) as (_ & G). rewrite G2. apply (apply_cycle_ok n (key Q) _ G); auto. }
  exists (pcyc n a b), v1, v2. split; [apply p_contiguous_cycle_ok; auto|]. split; [exact E1|]. split; [auto|].
  eapply Forall2_comp; [|exact F1|exact F2]. intros Q A B _. apply vmoved_same.
Qed.

Theorem apply_cycle_inv_vec n tau v a b : 1 <= n -> type_of n tau -> vec_of tau v -> 1 <= a -> a <= b -> b <= n ->
  exists c v1 v2, p_contiguous_cycle n a b = Ret c /\ sv_apply_cycle (mkCyc a b) v = Ret v1 /\ sv_apply_cycle_inv (mkCyc a b) v1 = Ret v2 /\ Forall2 same_part v2 v.
Proof.
  intros Hn T V Ha Hab Hb. pose proof (vec_pgood n tau v Hn (tau_parts n tau T) V) as Vg.
  pose proof (is_perm_pcyc n a b ltac:(lia) ltac:(lia)) as Hc. pose proof (is_perm_pcyc n b a ltac:(lia) ltac:(lia)) as Hc'.
  destruct (apply_with n (pcyc n a b) (fun P => act_cycle (irr_apply (sp_irr P)) (mkCyc a b) (sp_mat P)) v) as (v1 & E1 & F1).
  { intros Q HQ. split; [auto|]. destruct (Vg Q HQ) as (G1 & G2 & G3 & G4). destruct (mkirr_ok n (key Q) G1 Hn) as (_ & G). rewrite G2. apply (apply_cycle_ok n (key Q) _ G); auto; lia. }
  destruct (apply_with n (pcyc n b a) (fun P => act_cycle_inv (irr_apply (sp_irr P)) (mkCyc a b) (sp_mat P)) v1) as (v2 & E2 & F2).
  { intros Q' HQ'. destruct (Forall2_in_r _ _ _ _ F1 HQ') as (Q & HQ & M). pose proof (vmoved_good n _ Q Q' (Vg Q HQ) M) as GG. split; [auto|]. destruct GG as (G1 & G2 & G3 & G4).
    destruct (mkirr_ok n (key Q') G1 Hn) as (_ & G). rewrite G2. apply (apply_cycle_inv_ok n (key Q') _ G); auto; lia. }
  exists (pcyc n a b), v1, v2. split; [apply p_contiguous_cycle_ok; lia|]. split; [exact E1|]. split; [exact E2|].
  assert (pmul (pcyc n b a) (pcyc n a b) = pid n) as Epid by (apply pcyc_inverse; lia).
  destruct (apply_pure n (pid n) v Hn (is_perm_pid n ltac:(lia)) Vg) as (v3 & E3 & F3).
  assert (Forall2 (fun Q Q2 => exists Q1, vmoved n (pcyc n a b) Q Q1 /\ vmoved n (pcyc n b a) Q1 Q2) v v2) as FF by (eapply Forall2_trans; [|exact F1|exact F2]; eauto).
  assert (Forall2 (fun Q2 Q => same_part Q2 Q) v2 v) as K; [|exact K].
  assert (Forall2 (fun Q Q2 => exists Q3, same_part Q2 Q3 /\ same_part Q3 Q) v v2) as FS.
  { clear - FF F3 Vg Hn Epid Hc Hc'. revert v3 F3. induction FF as [|Q Q2 v v2 (Q1 & M1 & M2) FF IH]; intros v3 F3; inversion F3 as [|? Q3 ? v3' M3 F3']; subst; constructor; [|eapply IH; eauto; intros; apply Vg; right; auto].
    exists Q3. split; [|apply (vmoved_id n); auto; apply Vg; left; auto]. eapply (vmoved_mul n (pcyc n b a) (pcyc n a b) Q); eauto; [apply Vg; left; auto|]. rewrite Epid. auto. }
  clear - FS. induction FS as [|Q Q2 v v2 (Q3 & A & B) F IH]; constructor; auto.
  destruct A as (A1 & A2 & A3 & A4), B as (B1 & B2 & B3 & B4). split; [congruence|]. split; [congruence|]. split; [congruence|]. intros i j Hi Hj. rewrite A4 by auto. apply B4; congruence.
Qed.

(* ---- sums ---- *)

Theorem add_vec n tau v y : 1 <= n -> type_of n tau -> vec_of tau v -> vec_of tau y ->
  exists w, sv_add v y = Ret w /\ vec_of tau w /\
    forall k P Q, nth_error v k = Some P -> nth_error y k = Some Q -> exists S, nth_error w k = Some S /\ sp_irr S = sp_irr P /\ forall i j, m_at (sp_mat S) i j = (m_at (sp_mat P) i j + m_at (sp_mat Q) i j)%R.
Proof.
  intros Hn T V Y. assert (length tau = length v) as L1 by (eapply Forall2_len; eauto). assert (length tau = length y) as L2 by (eapply Forall2_len; eauto).
  set (sm := fun P Q : spart => mkSpart (sp_irr P) (madd (sp_mat P) (sp_mat Q))).
  set (w := map (fun pq : spart * spart => sm (fst pq) (snd pq)) (combine v y)).
  exists w.
  assert (forall k P Q, nth_error v k = Some P -> nth_error y k = Some Q -> m_n0 (sp_mat P) = m_n0 (sp_mat Q) /\ m_n1 (sp_mat P) = m_n1 (sp_mat Q)) as Dims.
  { intros k P Q EP EQ. assert (exists p, nth_error tau k = Some p) as (p & Ep). { destruct (nth_error tau k) eqn:E; eauto. apply nth_error_None in E. assert (nth_error v k <> None) as C by congruence. apply nth_error_Some in C. lia. }
    destruct (Forall2_nth_l _ _ _ _ _ V Ep) as (P' & EP' & KP). destruct (Forall2_nth_l _ _ _ _ _ Y Ep) as (Q' & EQ' & KQ). rewrite EP in EP'. rewrite EQ in EQ'. injection EP' as <-. injection EQ' as <-.
    destruct KP as (A1 & A2 & A3 & _), KQ as (B1 & B2 & B3 & _). assert (sp_irr P = sp_irr Q) by congruence. split; congruence. }
  split; [|split].
  - unfold sv_add. replace (zlen v =? zlen y) with true by (unfold zlen; symmetry; apply Z.eqb_eq; lia). cbn [assert_ bind].
    destruct (zfor_inv (fun k s => s = firstn (Z.to_nat k) w ++ skipn (Z.to_nat k) v) 0 (zlen v) (fun i v0 => P <- rd v0 i ;; Q <- rd y i ;;
      if (m_n0 (sp_mat P) =? m_n0 (sp_mat Q)) && (m_n1 (sp_mat P) =? m_n1 (sp_mat Q)) then wr v0 i (mkSpart (sp_irr P) (madd (sp_mat P) (sp_mat Q))) else UB) v) as (s & E & S).
    + apply zlen_nonneg.
    + reflexivity.
    + intros k s Hk ->. assert (exists P, nth_error v (Z.to_nat k) = Some P) as (P & EP). { destruct (nth_error v (Z.to_nat k)) eqn:E; eauto. apply nth_error_None in E. unfold zlen in Hk. lia. }
      assert (exists Q, nth_error y (Z.to_nat k) = Some Q) as (Q & EQ). { destruct (nth_error y (Z.to_nat k)) eqn:E; eauto. apply nth_error_None in E. unfold zlen in Hk. lia. }
      destruct (Dims _ P Q EP EQ) as (D0 & D1).
      destruct (nth_error_split _ _ EP) as (va & vb & Ev & La). destruct (nth_error_split _ _ EQ) as (ya & yb & Ey & Lb).
      assert (w = map (fun pq => sm (fst pq) (snd pq)) (combine va ya) ++ sm P Q :: map (fun pq => sm (fst pq) (snd pq)) (combine vb yb)) as Ew.
      { unfold w. rewrite Ev, Ey. clear - La Lb. assert (length va = length ya) as L by lia. clear La Lb. revert ya L. induction va as [|x va IH]; intros [|z ya] L; try discriminate; cbn; [auto|]. f_equal. apply IH. cbn in L; lia. }
      set (wa := map (fun pq => sm (fst pq) (snd pq)) (combine va ya)) in *. assert (length wa = Z.to_nat k) as Lw by (unfold wa; rewrite map_length, combine_length; lia).
      rewrite Ew, Ev. rewrite (firstn_app (Z.to_nat k)), (skipn_app (Z.to_nat k)), (skipn_all2 va), (firstn_all2 wa) by lia. replace (Z.to_nat k - length wa)%nat with 0%nat by lia. replace (Z.to_nat k - length va)%nat with 0%nat by lia.
      cbn [firstn skipn]. rewrite app_nil_r, app_nil_l. assert (k = zlen wa) as Kw by (unfold zlen; lia). assert (k = zlen ya) as Ky by (unfold zlen; lia).
      rewrite (rd_at' wa P vb k Kw). cbn [bind]. rewrite Ey, (rd_at' ya Q yb k Ky). cbn [bind]. rewrite D0, D1, !Z.eqb_refl. cbn [andb]. rewrite (wr_at' wa P vb _ k Kw). eexists. split; [reflexivity|].
      replace (Z.to_nat (k + 1)) with (S (Z.to_nat k)) by lia. rewrite firstn_app, skipn_app, (skipn_all2 va), (firstn_all2 wa) by lia. replace (S (Z.to_nat k) - length wa)%nat with 1%nat by lia. replace (S (Z.to_nat k) - length va)%nat with 1%nat by lia.
      cbn [firstn skipn app]. rewrite <- app_assoc. reflexivity.
    + rewrite E, S. rewrite firstn_all2, skipn_all2; [rewrite app_nil_r; reflexivity|unfold zlen; lia|]. unfold w. rewrite map_length, combine_length. unfold zlen. lia.
  - unfold w. clear - V Y. revert y Y. induction V as [|p P tau v H V IH]; intros y Y; inversion Y; subst; cbn [combine map]; constructor; [|apply IH; auto]. exact H.
  - intros k P Q EP EQ. exists (sm P Q). split; [|split; [reflexivity|intros; reflexivity]]. unfold w. rewrite nth_error_map. assert (nth_error (combine v y) k = Some (P, Q)) as ->; [|reflexivity].
    clear - EP EQ. revert y k EP EQ. induction v as [|x v IH]; intros [|z y] [|k] EP EQ; cbn in *; try discriminate; [congruence|]. apply IH; auto.
Qed.

Theorem add_mismatch v y : zlen v <> zlen y -> sv_add v y = Abort.
Proof. intros H. unfold sv_add. destruct (Z.eqb_spec (zlen v) (zlen y)); [contradiction|reflexivity]. Qed.
