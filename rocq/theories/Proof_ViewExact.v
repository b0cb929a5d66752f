(* The converse of C40: the batched action on the first index is right only when pairs overlap. *)
From Coq Require Import ZArith List Bool Lia ZifyBool ZifyNat Reals Lra Permutation.
From Verif Require Import Model_Base Model_Perm Model_Sn Model_Part Model_Comb Model_Tab Model_Irrep.
From Verif Require Import Spec_Perm Spec_Part Spec_Tab Spec_Rep Spec_Four.
From Verif Require Import Proof_Base Proof_Perm Proof_Sn Proof_Part Proof_PartProps Proof_Tab Proof_TabProps Proof_Cycles Proof_Cox Proof_Yor Proof_Sum
  Proof_Irrep Proof_Rep Proof_Mat Proof_IrrepProps Proof_View Proof_ViewProps.
Import ListNotations.
Open Scope Z_scope.

Lemma foldM_pinv_z {S} (P : Z -> S -> Prop) (body : Z -> S -> outcome S) k : forall s s', P 0 s -> (forall i s s', 0 <= i < Z.of_nat k -> P i s -> body i s = Ret s' -> P (i + 1) s') ->
  zfor 0 (Z.of_nat k) body s = Ret s' -> P (Z.of_nat k) s'.
Proof.
  induction k as [|k IH]; intros s s' H0 HS E.
  - unfold zfor in E. rewrite zrange_nil in E by lia. cbn [foldM] in E. injection E as <-. exact H0.
  - replace (Z.of_nat (Datatypes.S k)) with (Z.of_nat k + 1) in * by lia. unfold zfor in E. rewrite zrange_snoc, foldM_app in E by lia.
    destruct (foldM body (zrange 0 (Z.of_nat k)) s) as [s1| | |] eqn:E1; try discriminate. cbn [bind foldM] in E.
    destruct (body (Z.of_nat k) s1) as [s2| | |] eqn:E2; try discriminate. cbn [bind] in E. injection E as <-.
    apply (HS (Z.of_nat k) s1); [lia| |auto]. apply (IH s); auto. intros; eapply HS; eauto; lia.
Qed.

Lemma zfor_pinv {S} (P : Z -> S -> Prop) (body : Z -> S -> outcome S) d s s' : 0 <= d -> P 0 s -> (forall i s s', 0 <= i < d -> P i s -> body i s = Ret s' -> P (i + 1) s') ->
  zfor 0 d body s = Ret s' -> P d s'.
Proof.
  intros Hd H0 HS E. replace d with (Z.of_nat (Z.to_nat d)) in * by lia. eapply foldM_pinv_z; eauto.
Qed.

Section Conv.
  Variables (n : Z) (l : list Z) (o : irr) (tau : Z).
  Hypothesis G : good n l o.
  Hypothesis Ht : 1 <= tau < n.
  Notation pt := (ptn o tau).
  Notation g0 := (0, 0, 0%R, 0%R).

  Definition slotz (r : Z) : Z := r - zlen (filter (isadj o tau) (zrange 0 r)).

  (* what the plan holds whenever it can be made *)
  Lemma plan_inv nd diags giv : yor_plan o tau = Ret (nd, diags, giv) ->
    nd = zlen (filter (isadj o tau) (zrange 0 (io_d o))) /\
    firstn (Z.to_nat nd) diags = map (fdiag o tau) (filter (isadj o tau) (zrange 0 (io_d o))) /\ zlen giv = io_d o / 2 + 1 /\
    (forall s, 0 <= s < zlen giv -> znth giv s g0 = g0 \/ exists r, 0 <= r < io_d o /\ r < pt r /\ s = slotz r /\ znth giv s g0 = fgiv o tau r).
  Proof.
    unfold yor_plan. pose proof (io_d_nonneg o) as Hd. intros E.
    set (inv := fun (i : Z) (st : Z * list (Z * R) * list (Z * Z * R * R) * list bool) => let '(ix, diags, giv, done) := st in
      ix = zlen (filter (isadj o tau) (zrange 0 i)) /\ zlen diags = io_d o /\ zlen giv = io_d o / 2 + 1 /\ zlen done = io_d o /\
      firstn (Z.to_nat ix) diags = map (fdiag o tau) (filter (isadj o tau) (zrange 0 i)) /\
      (forall s, 0 <= s < zlen giv -> znth giv s g0 = g0 \/ exists r, 0 <= r < io_d o /\ r < pt r /\ s = slotz r /\ znth giv s g0 = fgiv o tau r) /\
      (forall r, 0 <= r < io_d o -> znth done r false = (pt r <? r) && (pt r <? i))).
    match type of E with context [zfor 0 (io_d o) ?b ?s] => set (body := b) in E; set (st0 := s) in E end.
    destruct (zfor 0 (io_d o) body st0) as [(((ix & dg) & gv) & dn)| | |] eqn:EZ; try discriminate. cbn [bind] in E. injection E as <- <- <-.
    assert (inv (io_d o) (ix, dg, gv, dn)) as K.
    { apply (zfor_pinv inv body (io_d o) st0); auto.
      - unfold st0, inv. rewrite zrange_nil by lia. cbn [filter map]. change (zlen (@nil Z)) with 0.
        split; auto. split; [rewrite zlen_repeat; lia|]. split; [rewrite zlen_repeat; lia|]. split; [rewrite zlen_repeat; lia|]. split; auto. split.
        + intros s Hs. left. rewrite zlen_repeat in Hs by lia. rewrite znth_repeat by lia. reflexivity.
        + intros r Hr. rewrite znth_repeat by lia. pose proof (ptn_range n l o tau G Ht r Hr). lia.
      - intros i (((ix1 & diags1) & giv1) & done1) st' Hi (Ex & Ld & Lg & Ldn & Vd & Vg & Vn) B. unfold body in B. rewrite (rd_ok _ _ false) in B by lia. cbn [bind] in B. rewrite Vn in B by auto.
        pose proof (tb_standard n l o i G Hi) as S. pose proof (del_nz n l (tb o i) tau ltac:(apply G) S Ht) as NZ.
        pose proof (zlen_nonneg (filter (isadj o tau) (zrange 0 i))).
        destruct (Z_lt_dec (pt i) i) as [Lt|Ge].
        + replace ((pt i <? i) && (pt i <? i)) with true in B by lia. apply Ret_inj in B. subst st'. unfold inv. rewrite !filter_snoc by lia.
          assert (isadj o tau i = false) as -> by (unfold isadj; lia). rewrite !app_nil_r.
          repeat (split; [assumption|]). intros r Hr. rewrite Vn by auto. destruct (Z.eq_dec (pt r) i) as [Q|Q]; [|lia]. apply (pt_iff n l o tau G Ht) in Q; auto. lia.
        + replace ((pt i <? i) && (pt i <? i)) with false in B by lia. rewrite (rd_ok _ _ []) in B by (auto; unfold io_d in *; lia). cbn [bind] in B. fold (tb o i) in B.
          rewrite (transp_tb n l o (tb o i) tau) in B by auto. cbn [bind] in B. fold (adj (del tau (tb o i))) in B. rewrite (adj_isadj n l o tau G Ht) in B by auto.
          destruct (isadj o tau i) eqn:A.
          * assert (pt i = i) as Pi by (unfold isadj in A; lia).
            assert (zlen (filter (isadj o tau) (zrange 0 i)) <= i) as Bi by (pose proof (split3 o tau (zrange 0 i) ltac:(auto)) as S3; rewrite zlen_zrange in S3; pose proof (zlen_nonneg (filter (isfst o tau) (zrange 0 i))); pose proof (zlen_nonneg (filter (issnd o tau) (zrange 0 i))); lia).
            rewrite wr_ok in B by lia. cbn [bind] in B. apply Ret_inj in B. subst st'. unfold inv. rewrite !filter_snoc, A by lia.
            split; [rewrite zlen_app; change (zlen [i]) with 1; lia|]. split; [rewrite zlen_zupd by lia; auto|]. split; [auto|]. split; [auto|]. split; [|split; [auto|]].
            -- rewrite firstn_zupd by lia. rewrite Vd, map_app. reflexivity.
            -- intros r Hr. rewrite Vn by auto. destruct (Z.eq_dec (pt r) i) as [Q|Q]; [|lia]. apply (pt_iff n l o tau G Ht) in Q; auto. lia.
          * assert (pt i <> i) as Pi by (unfold isadj in A; lia). destruct (Z.eqb_spec (del tau (tb o i)) 0); [lia|].
            destruct (wr giv1 (i - ix1) _) as [giv2| | |] eqn:W; try discriminate. cbn [bind] in B. pose proof W as W0. unfold wr in W0.
            destruct ((0 <=? i - ix1) && (i - ix1 <? zlen giv1)) eqn:Bd; [|discriminate]. clear W0. rewrite wr_ok in W by lia. apply Ret_inj in W.
            assert (pos o (tswap tau (tau + 1) (tb o i)) = pt i) as Ep by (unfold ptn; rewrite (adj_isadj n l o tau G Ht), A by auto; reflexivity).
            fold (pos o (tswap tau (tau + 1) (tb o i))) in B, W. rewrite Ep in B, W.
            pose proof (ptn_range n l o tau G Ht i Hi) as Ri. rewrite wr_ok in B by lia. cbn [bind] in B. apply Ret_inj in B. subst st'. unfold inv. rewrite !filter_snoc, A by lia. rewrite app_nil_r.
            subst giv2. split; [auto|]. split; [auto|]. split; [rewrite zlen_zupd by lia; auto|]. split; [rewrite zlen_zupd by lia; auto|]. split; [auto|]. split.
            -- intros s Hs. rewrite zlen_zupd in Hs by lia. rewrite znth_zupd by lia. destruct (Z.eqb_spec s (i - ix1)) as [->|Ns]; [|apply Vg; lia].
               right. exists i. split; [auto|]. split; [lia|]. split; [unfold slotz; lia|]. unfold fgiv. rewrite Dd_div, Sd_div. reflexivity.
            -- intros r Hr. rewrite znth_zupd by lia. destruct (Z.eqb_spec r (pt i)) as [->|Nr].
               ++ rewrite (ptn_ptn n l) by auto. lia.
               ++ rewrite Vn by auto. assert (pt r <> i) by (intros Q; apply Nr; apply (pt_iff n l o tau G Ht); auto). lia. }
    destruct K as (K1 & _ & K3 & _ & K5 & K6 & _). auto.
  Qed.

  (* the last pair, when it starts after another has ended, is written beyond the slots that are used *)
  Lemma last_first r : 0 <= r < io_d o -> r < pt r -> exists f, r <= f < io_d o /\ f < pt f /\ forall r', 0 <= r' < io_d o -> r' < pt r' -> r' <= f.
  Proof.
    intros Hr Fr. remember (Z.to_nat (io_d o - r)) as m eqn:Em. revert r Hr Fr Em. induction m as [m IH] using lt_wf_ind. intros r Hr Fr Em.
    destruct (existsb (fun r' => (r <? r') && (r' <? pt r')) (zrange 0 (io_d o))) eqn:X.
    - apply existsb_exists in X as (r' & I & Y). apply in_zrange in I. destruct (IH (Z.to_nat (io_d o - r')) ltac:(lia) r' I ltac:(lia) eq_refl) as (f & Hf & F1 & F2).
      exists f. split; [lia|]. auto.
    - exists r. split; [lia|]. split; [auto|]. intros r' Hr' Fr'. destruct (Z_le_dec r' r); auto. exfalso.
      assert (existsb (fun r' => (r <? r') && (r' <? pt r')) (zrange 0 (io_d o)) = true); [|congruence]. apply existsb_exists. exists r'. split; [apply in_zrange; auto|]. lia.
  Qed.

  Lemma late_slot f i : 0 <= f < io_d o -> f < pt f -> (forall r', 0 <= r' < io_d o -> r' < pt r' -> r' <= f) -> 0 <= i < io_d o -> i < pt i -> pt i < f ->
    zlen (filter (isfst o tau) (zrange 0 (io_d o))) <= slotz f.
  Proof.
    intros Hf Ff Mx Hi Fi Lt. unfold slotz. pose proof (split3 o tau (zrange 0 f) ltac:(auto)) as S. rewrite zlen_zrange in S.
    assert (1 <= zlen (filter (issnd o tau) (zrange 0 f))) as S1.
    { assert (In (pt i) (filter (issnd o tau) (zrange 0 f))) as I.
      { apply filter_In. pose proof (ptn_range n l o tau G Ht i Hi). split; [apply in_zrange; lia|]. unfold issnd. rewrite (ptn_ptn n l) by auto. lia. }
      destruct (filter (issnd o tau) (zrange 0 f)); [destruct I|]. rewrite zlen_cons. pose proof (zlen_nonneg l0). lia. }
    assert (zlen (filter (isfst o tau) (zrange 0 (io_d o))) = zlen (filter (isfst o tau) (zrange 0 f)) + 1) as S2.
    { replace (zrange 0 (io_d o)) with (zrange 0 (f + 1) ++ zrange (f + 1) (io_d o)) by (symmetry; apply zrange_app; lia). rewrite filter_app, filter_snoc by lia.
      replace (isfst o tau f) with true by (unfold isfst; lia). rewrite !zlen_app. change (zlen [f]) with 1.
      assert (filter (isfst o tau) (zrange (f + 1) (io_d o)) = []) as ->; [|change (zlen (@nil Z)) with 0; lia].
      destruct (filter (isfst o tau) (zrange (f + 1) (io_d o))) as [|x q] eqn:Q; auto. exfalso. assert (In x (x :: q)) as I by (left; auto). rewrite <- Q in I.
      apply filter_In in I as (I & Fx). apply in_zrange in I. unfold isfst in Fx. specialize (Mx x ltac:(lia) ltac:(lia)). lia. }
    lia.
  Qed.

  Lemma fold_givens_away L : forall T f, (forall e, In e L -> e = g0 \/ exists r, e = fgiv o tau r /\ r <> f /\ pt r <> f) -> 0 < f ->
    forall a b, t_at (fold_left givens_slice L T) f a b = t_at T f a b.
  Proof.
    induction L as [|e L IH]; intros T f H Hf a b; [reflexivity|]. cbn [fold_left]. rewrite IH by (auto; intros; apply H; right; auto).
    destruct (H e (or_introl eq_refl)) as [->|(r & -> & N1 & N2)]; cbn [givens_slice fgiv t_at].
    - destruct (Z.eqb_spec f 0); [lia|reflexivity].
    - destruct (Z.eqb_spec f (pt r)); [congruence|]. destruct (Z.eqb_spec f r); [congruence|]. reflexivity.
  Qed.

  Lemma In_firstn_znth {A} (q : list A) k d e : In e (firstn (Z.to_nat k) q) -> exists s, 0 <= s < k /\ s < zlen q /\ znth q s d = e.
  Proof.
    intros I. apply (In_nth _ _ d) in I as (m & Hm & E). rewrite firstn_length in Hm. exists (Z.of_nat m). split; [lia|]. split; [unfold zlen; lia|].
    unfold znth. destruct (Z.ltb_spec (Z.of_nat m) 0); [lia|]. rewrite Nat2Z.id. rewrite <- E. rewrite <- (firstn_skipn (Z.to_nat k) q) at 1. rewrite app_nth1 by (rewrite firstn_length; lia). reflexivity.
  Qed.

  Lemma Sd_nz z : z <> 0 -> adj z = false -> Sd z <> 0%R.
  Proof.
    intros Hz A E. pose proof (Sd_sq z Hz) as S. rewrite E in S. unfold Dd in S. assert (IZR z <> 0%R) as N by (apply not_0_IZR; auto).
    assert (IZR z * IZR z = 1)%R as Q. { apply (Rmult_eq_reg_l (/ IZR z * / IZR z)); [|apply Rmult_integral_contrapositive; split; apply Rinv_neq_0_compat; auto]. rewrite Rmult_1_r. replace (/ IZR z * / IZR z * (IZR z * IZR z))%R with 1%R by (field; auto). lra. }
    rewrite <- mult_IZR in Q. apply eq_IZR in Q. unfold adj in A. assert (z = 1 \/ z = -1) by nia. lia.
  Qed.

  (* an action that agrees with the matrix on the identity implies that the pairs overlap *)
  Theorem view_nest T T' : t_n0 T = io_d o -> (forall i j, 0 <= i < io_d o -> 0 <= j < io_d o -> t_at T i j 0 = if i =? j then 1%R else 0%R) ->
    irr_apply_view o tau T = Ret T' -> (forall i j, 0 <= i < io_d o -> 0 <= j < io_d o -> t_at T' i j 0 = col' o tau (fun k => t_at T k j 0) i) -> nest o tau.
  Proof.
    intros N0 HI E V i i' Hi Hi' Fi Fi'. destruct (Z_lt_dec i' (pt i)) as [|Nlt]; [auto|]. exfalso.
    destruct (last_first i' Hi' Fi') as (f & Hf & Ff & Mx).
    assert (pt i < f) as Lt. { assert (pt i <> f) by (intros Q; rewrite <- Q, (ptn_ptn n l) in Ff by auto; lia). lia. }
    pose proof (late_slot f i ltac:(lia) Ff Mx Hi Fi Lt) as LS.
    unfold irr_apply_view in E. rewrite N0, Z.eqb_refl in E. cbn [assert_ bind] in E. assert (io_n o = n) as EN by apply G. rewrite EN in E.
    destruct ((tau <? 1) || (n - 1 <? tau)) eqn:Q; [lia|]. destruct (yor_plan o tau) as [((nd & dg) & gv)| | |] eqn:EP; try discriminate. cbn [bind] in E. apply Ret_inj in E.
    destruct (plan_inv nd dg gv EP) as (End & Vd & Lg & Vg). rewrite Vd in E.
    destruct (fold_scale o tau (filter (isadj o tau) (zrange 0 (io_d o))) T) as (D1 & W1); [apply NoDup_filter, NoDup_zrange|].
    set (T1 := fold_left scale_slice (map (fdiag o tau) (filter (isadj o tau) (zrange 0 (io_d o)))) T) in *.
    assert (0 <= i) by lia. pose proof (ptn_range n l o tau G Ht f ltac:(lia)) as Rf.
    assert (t_at T' f (pt f) 0 = t_at T f (pt f) 0) as Same.
    { subst T'. rewrite fold_givens_away; [|intros e He|lia].
      - rewrite W1. destruct (in_dec Z.eq_dec f _) as [I|I]; [|reflexivity]. apply filter_In in I as (_ & I). unfold isadj in I. lia.
      - apply (In_firstn_znth _ _ g0) in He as (s & Hs & Hs' & <-). destruct (Vg s ltac:(lia)) as [->|(r & Hr & Fr & Es & ->)]; [left; auto|]. right. exists r. split; [auto|].
        rewrite End, (slots_used n l o tau G Ht) in Hs. split.
        + intros ->. lia.
        + intros Q2. rewrite <- Q2, (ptn_ptn n l) in Ff by auto. lia. }
    rewrite V in Same by lia. rewrite HI in Same by lia. destruct (Z.eqb_spec f (pt f)); [lia|].
    assert (adj (del tau (tb o f)) = false) as Af by (rewrite (adj_isadj n l o tau G Ht) by lia; unfold isadj; lia).
    rewrite (col_pair n l) in Same by (auto; lia). rewrite !HI in Same by lia. destruct (Z.eqb_spec f (pt f)); [lia|]. rewrite Z.eqb_refl in Same.
    apply (Sd_nz (del tau (tb o f))); [|auto|lra]. apply (del_nz n l); auto; [apply G|eapply tb_standard; eauto; lia].
  Qed.

  Lemma nest_pairs : nest o tau -> pairs_overlap (io_tabs o) tau.
  Proof.
    intros N i j i' j' Hi Hi' X X'.
    assert (forall a b, (a < b < length (io_tabs o))%nat -> exchanged tau (nth a (io_tabs o) []) (nth b (io_tabs o) []) -> pt (Z.of_nat a) = Z.of_nat b) as K.
    { intros a b Hab Y. assert (0 <= Z.of_nat a < io_d o) as Ha by (unfold io_d, zlen; lia). assert (0 <= Z.of_nat b < io_d o) as Hb by (unfold io_d, zlen; lia).
      assert (tb o (Z.of_nat b) = tswap tau (tau + 1) (tb o (Z.of_nat a))) as Et.
      { unfold tb, znth. destruct (Z.ltb_spec (Z.of_nat b) 0); [lia|]. destruct (Z.ltb_spec (Z.of_nat a) 0); [lia|]. rewrite !Nat2Z.id. unfold exchanged in Y. rewrite Y. symmetry. apply exchanged_tswap. }
      pose proof (tb_standard n l o _ G Hb) as Sb. rewrite Et in Sb. pose proof (tb_standard n l o _ G Ha) as Sa.
      unfold ptn. destruct (adj (del tau (tb o (Z.of_nat a)))) eqn:A.
      - exfalso. apply (tswap_not_standard n l (tb o (Z.of_nat a)) tau); auto; [apply G|unfold adj in A; lia].
      - rewrite <- Et. apply (pos_tb n l); auto. }
    pose proof (K i j Hi X) as K1. pose proof (K i' j' Hi' X') as K2.
    specialize (N (Z.of_nat i) (Z.of_nat i')). unfold io_d, zlen in N. lia.
  Qed.

  (* the columns of the generator *)
  Lemma col_rho f i : 0 <= i < io_d o -> col' o tau f i = rsum (io_d o) (fun k => (rho n o (ptransp n tau (tau + 1)) i k * f k)%R).
  Proof.
    intros Hi. set (A := mkMat (io_d o) 1 (fun i _ => f i)).
    destruct (apply_tau_ok n l o G tau A Ht eq_refl ltac:(cbn; lia)) as (A' & E & _ & _ & V).
    destruct (acts_mat n l o G 1 ltac:(lia) tau A Ht (conj eq_refl eq_refl)) as (A2 & E2 & _ & V2). cbn in E2. rewrite E in E2. apply Ret_inj in E2. subst A2.
    specialize (V i 0 Hi ltac:(cbn; lia)). specialize (V2 0 i Hi). cbn [incols] in V2. rewrite V2 in V. unfold incols in V. cbn in V. exact V.
  Qed.
End Conv.

Lemma view_transp_tau o tau T : irr_view_transp o (mkTransp tau (tau + 1)) T = irr_apply_view o tau T.
Proof.
  unfold irr_view_transp, act_transp, zford. cbn [tr_i tr_j]. replace (Z.min tau (tau + 1)) with tau by lia. replace (Z.max tau (tau + 1)) with (tau + 1) by lia.
  replace (tau + 1 - 1 + 1) with (tau + 1) by lia. replace (zrange tau (tau + 1)) with [tau] by (rewrite zrange_snoc, zrange_nil by lia; reflexivity). cbn [rev app foldM].
  destruct (irr_apply_view o tau T); auto. cbn [bind]. rewrite zfor_nil by lia. reflexivity.
Qed.

(* the action of an adjacent transposition is right on every view exactly when the pairs overlap *)
Theorem view_exact n l o tau : is_part n l -> 1 <= n -> irr_new l = Ret o -> 1 <= tau < n ->
  (pairs_overlap (io_tabs o) tau <->
   exists c M, p_transposition n tau (tau + 1) = Ret c /\ irr_matrix o c = Ret M /\
     forall T, t_n0 T = io_d o -> exists T', irr_view_transp o (mkTransp tau (tau + 1)) T = Ret T' /\
       forall i a b, 0 <= i < io_d o -> t_at T' i a b = rsum (io_d o) (fun k => (m_at M i k * t_at T k a b)%R)).
Proof.
  intros P Hn E Ht. pose proof (irr_new_good n l o P Hn E) as G. pose proof (is_perm_ptransp n tau (tau + 1) ltac:(lia) ltac:(lia)) as Pp.
  destruct (matrix_ok n l o G _ Pp) as (M & EM & _ & _ & VM). pose proof (p_transposition_ok n tau (tau + 1) ltac:(lia) ltac:(lia)) as Ec. split.
  - intros H. exists (ptransp n tau (tau + 1)), M. split; [auto|]. split; [auto|]. intros T N0. rewrite view_transp_tau.
    destruct (apply_view_ok n l o tau G Ht T (pairs_nest n l o tau G Ht H) N0) as (T' & ET & _ & V). exists T'. split; [auto|]. intros i a b Hi. rewrite V by auto.
    rewrite (col_rho n l) by auto. apply rsum_ext. intros k Hk. rewrite VM by auto. reflexivity.
  - intros (c & M' & Ec' & EM' & H). rewrite Ec in Ec'. apply Ret_inj in Ec'. subst c. rewrite EM in EM'. apply Ret_inj in EM'. subst M'. apply (nest_pairs n l); auto.
    set (T := mkTen (io_d o) (io_d o) 1 (fun i j _ => if i =? j then 1%R else 0%R)).
    destruct (H T eq_refl) as (T' & ET & V). rewrite view_transp_tau in ET. apply (view_nest n l o tau G Ht T T'); auto.
    intros i j Hi Hj. rewrite V by auto. rewrite (col_rho n l) by auto. apply rsum_ext. intros k Hk. rewrite VM by auto. reflexivity.
Qed.
